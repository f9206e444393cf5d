(** Lemmas about Import.v *)
From Coq Require Import ZArith NArith List Bool Lia.
From Verif Require Import Num MathTypes Outcome Mesh Import Spec SpecImport P_Mesh P_Firsts.
Import ListNotations.

Lemma keyb_spec : forall a b, s_keyb a b = true <-> a = b.
Proof.
  intros [[[x y] z]|] [[[x' y'] z']|]; cbn; try (split; congruence).
  rewrite !andb_true_iff, !Z.eqb_eq. split; [intros [[-> ->] ->]; auto|intros [= -> -> ->]; auto].
Qed.
Lemma key3b_spec : forall a b, s_key3b a b = true <-> a = b.
Proof.
  intros [[x y] z] [[x' y'] z']. cbn. rewrite !andb_true_iff, !keyb_spec.
  split; [intros [[-> ->] ->]; auto|intros [= -> -> ->]; auto].
Qed.

(** *** the ordered maps *)
Section ZM.
  Context {A : Type}.
  Fixpoint zsorted (l : list (Z * A)) : Prop :=
    match l with [] => True | (k, _) :: r => (forall k' a, In (k', a) r -> (k < k')%Z) /\ zsorted r end.
  Lemma zupd_in : forall l k d f k' (a' : A), In (k', a') (zupd k d f l) -> k' = k \/ exists a, In (k', a) l.
  Proof.
    induction l as [|[k0 a0] r IH]; cbn; intros k d f k' a' H.
    - destruct H as [[= <- <-]|[]]; auto.
    - destruct (Z.ltb k k0); cbn in H.
      + destruct H as [[= <- <-]|[H|H]]; eauto.
      + destruct (Z.ltb k0 k); cbn in H.
        * destruct H as [[= <- <-]|H]; eauto. destruct (IH _ _ _ _ _ H) as [?|[a ?]]; eauto.
        * destruct H as [[= <- <-]|H]; eauto.
  Qed.
  Lemma zupd_sorted : forall l k d (f : A -> A), zsorted l -> zsorted (zupd k d f l).
  Proof.
    induction l as [|[k0 a0] r IH]; cbn; intros k d f S.
    - split; [intros ? ? []|auto].
    - destruct S as [S1 S2]. destruct (Z.ltb_spec k k0); cbn.
      + split; [|split; auto]. intros k' a [[= <- <-]|I]; auto. specialize (S1 _ _ I). lia.
      + destruct (Z.ltb_spec k0 k); cbn.
        * split; [|apply IH; auto]. intros k' a I. destruct (zupd_in _ _ _ _ _ _ I) as [->|[a' I']]; eauto.
        * split; auto.
  Qed.
  Lemma zfind_below : forall l k, (forall k' (a : A), In (k', a) l -> (k < k')%Z) -> zfind k l = None.
  Proof. destruct l as [|[k' a] r]; cbn; intros k H; auto. destruct (Z.ltb_spec k k'); auto. specialize (H k' a (or_introl eq_refl)). lia. Qed.
  Lemma zfind_zupd : forall l k d (f : A -> A) k', zsorted l ->
    zfind k' (zupd k d f l) = if Z.eqb k k' then Some (f (match zfind k l with Some a => a | None => d end)) else zfind k' l.
  Proof.
    induction l as [|[k0 a0] r IH]; cbn; intros k d f k' S.
    - destruct (Z.ltb_spec k' k), (Z.ltb_spec k k'), (Z.eqb_spec k k'); auto; lia.
    - destruct S as [S1 S2]. destruct (Z.ltb_spec k k0); cbn.
      + destruct (Z.ltb_spec k' k), (Z.ltb_spec k k'), (Z.eqb_spec k k'); auto; try lia.
        destruct (Z.ltb_spec k' k0); auto; lia.
      + destruct (Z.ltb_spec k0 k); cbn.
        * rewrite IH by auto. destruct (Z.ltb_spec k' k0), (Z.ltb_spec k0 k'), (Z.eqb_spec k k'); auto; try lia.
        * assert (k = k0) by lia. subst k0. destruct (Z.ltb_spec k' k), (Z.ltb_spec k k'), (Z.eqb_spec k k'); auto; lia.
  Qed.
  Lemma zfind_in : forall l k (a : A), zfind k l = Some a -> In (k, a) l.
  Proof.
    induction l as [|[k0 a0] r IH]; cbn; intros k a H; [discriminate|].
    destruct (Z.ltb_spec k k0); [discriminate|]. destruct (Z.ltb_spec k0 k); auto. injection H as ->. left. f_equal. lia.
  Qed.
  Lemma zupd_all : forall (P : A -> Prop) l k d f, P (f d) -> (forall a, P a -> P (f a)) ->
    (forall k' a, In (k', a) l -> P a) -> forall k' a, In (k', a) (zupd k d f l) -> P a.
  Proof.
    induction l as [|[k0 a0] r IH]; cbn; intros k d f D F H k' a I.
    - destruct I as [[= <- <-]|[]]; auto.
    - destruct (Z.ltb k k0); cbn in I.
      + destruct I as [[= <- <-]|[I|I]]; eauto.
      + destruct (Z.ltb k0 k); cbn in I; destruct I as [[= <- <-]|I]; eauto.
  Qed.
End ZM.

Section Z3.
  Context {A : Type}.
  Definition zok2 (m : list (Z * list (Z * A))) : Prop := zsorted m /\ forall k l, In (k, l) m -> zsorted l.
  Definition zok3 (m : zmap3 A) : Prop := zsorted m /\ forall k l, In (k, l) m -> zok2 l.
  Lemma zok2_nil : zok2 []. Proof. split; cbn; auto. intros ? ? []. Qed.
  Lemma zok3_nil : zok3 []. Proof. split; cbn; auto. intros ? ? []. Qed.
  Lemma zok2_upd : forall k z a m, zok2 m -> zok2 (zupd k [] (zupd z a (fun _ => a)) m).
  Proof.
    intros k z a m [S H]. split. apply zupd_sorted; auto.
    apply zupd_all; auto. apply zupd_sorted. exact I. intros. apply zupd_sorted; auto.
  Qed.
  Lemma zok3_set : forall k (a : A) m, zok3 m -> zok3 (set3 k a m).
  Proof.
    intros [[x y] z] a m [S H]. split. apply zupd_sorted; auto.
    apply zupd_all; auto. apply zok2_upd, zok2_nil. intros. apply zok2_upd; auto.
  Qed.
  Lemma find3_set3 : forall k (a : A) m k', zok3 m ->
    find3 k' (set3 k a m) = if s_keyb (Some k) (Some k') then Some a else find3 k' m.
  Proof.
    intros [[x y] z] a m [[x' y'] z'] [S H]. unfold find3, set3, s_keyb.
    rewrite zfind_zupd by auto. destruct (Z.eqb_spec x x'); cbn [andb]; auto. subst x'.
    set (m1 := match zfind x m with Some m1 => m1 | None => [] end).
    assert (O1 : zok2 m1).
    { unfold m1. destruct (zfind x m) eqn:F; [apply (H x), zfind_in; auto|apply zok2_nil]. }
    assert (E : find3 (x, y', z') m = match zfind y' m1 with Some m2 => zfind z' m2 | None => None end).
    { unfold find3, m1. destruct (zfind x m); auto. }
    unfold find3 in E. destruct O1 as [O1 O2]. rewrite zfind_zupd by auto. destruct (Z.eqb_spec y y'); cbn [andb]; auto. subst y'.
    set (m2 := match zfind y m1 with Some m2 => m2 | None => [] end) in *.
    assert (O3 : zsorted m2).
    { unfold m2. destruct (zfind y m1) eqn:F; [apply (O2 y), zfind_in; auto|cbn; auto]. }
    rewrite zfind_zupd by auto. destruct (Z.eqb_spec z z'); auto. rewrite E. unfold m2. destruct (zfind y m1); auto.
  Qed.
End Z3.

Section Imp.
  Context {T : Type} {NT : Num T}.
  Variables (pose : trans3 T) (scale : vec3 T) (transform : bool).
  Notation key := (imp_key scale).
  Notation place := (imp_point pose scale transform).
  Notation firsts := (s_firsts s_keyb key []).
  Notation index := (gindex s_keyb key).

  (** mesh index of a vertex *)
  Definition vix (base : nat) (vs : list (vec3 T)) (v : vec3 T) : option N :=
    option_map (fun j => N.of_nat (base + j)) (index (key v) (firsts vs)).

  Record iv_inv (base : list (vec3 T)) (ts : list triI) (don : list (vec3 T)) (xyz : zmap3 N) (im : list N) (m : mesh T) : Prop := {
    iv_pts : m_points m = base ++ map place (firsts don);
    iv_tris : m_tris m = ts;
    iv_ok : zok3 xyz;
    iv_find : forall k, find3 k xyz = option_map (fun j => N.of_nat (length base + j)) (index (Some k) (firsts don));
    iv_im : map Some im = map (vix (length base) don) don
  }.

  Lemma vix_stable : forall base don v u, In u don -> vix base (don ++ [v]) u = vix base don u.
  Proof.
    intros base don v u I. unfold vix. rewrite (gfirsts_snoc s_keyb). cbn [app].
    destruct (existsb _ _); [rewrite app_nil_r; auto|].
    rewrite (gindex_app s_keyb). destruct (gindex_in s_keyb keyb_spec key don u I) as [j ->]. auto.
  Qed.

  Lemma imp_verts_spec : forall vs base ts don xyz im m,
    (N.of_nat (length base + length (don ++ vs)) < 2 ^ 32)%N ->
    iv_inv base ts don xyz im m ->
    match imp_verts pose scale transform vs xyz im m with
    | Ret (im', m') => (forall v, In v vs -> key v <> None) /\ exists xyz', iv_inv base ts (don ++ vs) xyz' im' m'
    | UB => exists v, In v vs /\ key v = None
    | _ => False
    end.
  Proof.
    induction vs as [|v r IH]; intros base ts don xyz im m S I; cbn [imp_verts].
    - rewrite app_nil_r. split; [intros v []|eauto].
    - destruct (key v) as [k|] eqn:K; cbn [or_ub obind]; [|exists v; cbn; auto].
      assert (S' : (N.of_nat (length base + length ((don ++ [v]) ++ r)) < 2 ^ 32)%N) by (rewrite <- app_assoc; auto).
      assert (G : forall xyz im m, iv_inv base ts (don ++ [v]) xyz im m ->
         match imp_verts pose scale transform r xyz im m with
         | Ret (im', m') => (forall u, In u (v :: r) -> key u <> None) /\ exists xyz', iv_inv base ts (don ++ v :: r) xyz' im' m'
         | UB => exists u, In u (v :: r) /\ key u = None
         | _ => False end).
      { intros xyz' im' m' I'. specialize (IH base ts (don ++ [v]) xyz' im' m' S' I').
        destruct (imp_verts pose scale transform r xyz' im' m') as [[im1 m1]| | |]; auto.
        - rewrite <- app_assoc in IH. destruct IH as [IH1 IH2]. split; auto. intros u [<-|U]; auto. congruence.
        - destruct IH as [p [P1 P2]]. exists p. cbn; auto. }
      destruct I as [I1 I2 I3 I4 I5].
      assert (ST : map (vix (length base) (don ++ [v])) don = map (vix (length base) don) don).
      { apply map_ext_in. intros u U. apply vix_stable. auto. }
      pose proof (gindex_none s_keyb key (key v) (firsts don)) as GN.
      pose proof (gfirsts_snoc s_keyb key don v []) as FS. cbn [app] in FS.
      destruct (find3 k xyz) as [ip|] eqn:F; [apply G|].
      + rewrite I4, <- K in F. destruct (index (key v) (firsts don)) as [j|] eqn:X; [|discriminate F].
        assert (E : existsb (s_keyb (key v)) (map key (firsts don)) = true).
        { destruct (existsb _ _); auto. destruct GN as [_ GN]. discriminate (GN eq_refl). }
        rewrite E, app_nil_r in FS.
        constructor; auto.
        * rewrite FS. auto.
        * intros k'. rewrite FS. apply I4.
        * rewrite !map_app, I5, ST. cbn. unfold vix. rewrite FS, X. cbn in F. injection F as <-. auto.
      + rewrite I4, <- K in F. destruct (index (key v) (firsts don)) as [j|] eqn:X; [discriminate F|].
        assert (E : existsb (s_keyb (key v)) (map key (firsts don)) = false) by (apply GN; auto).
        rewrite E in FS.
        unfold addPoint. apply G. cbn [invalidate m_points m_tris].
        assert (L : length (m_points m) = length base + length (firsts don)) by (rewrite I1, app_length, map_length; auto).
        assert (U : u32 (N.of_nat (length (m_points m))) = N.of_nat (length base + length (firsts don))).
        { rewrite L. apply u32_small. pose proof (gfirsts_le s_keyb key don []). rewrite app_length in S. cbn in S. lia. }
        rewrite U. constructor; auto.
        * cbn [m_points]. rewrite I1, FS, map_app, app_assoc. auto.
        * apply zok3_set; auto.
        * intros k'. rewrite find3_set3 by auto. rewrite FS, (gindex_app s_keyb), I4.
          destruct (s_keyb (Some k) (Some k')) eqn:Q.
          { apply keyb_spec in Q. injection Q as <-. rewrite <- K, X. rewrite (eqb_same s_keyb keyb_spec). auto. }
          { rewrite K. rewrite (eqb_sym s_keyb keyb_spec (Some k') (Some k)), Q. destruct (index (Some k') (firsts don)); auto. }
        * rewrite !map_app, I5, ST. cbn. unfold vix. rewrite FS, (gindex_app s_keyb), X.
          rewrite (eqb_same s_keyb keyb_spec). auto.
  Qed.

  (** *** faces *)
  Definition vix_ (base : nat) (vs : list (vec3 T)) (v : vec3 T) : N := match vix base vs v with Some n => n | None => 0%N end.
  Lemma vix_inj : forall base vs a b, In a vs -> In b vs -> vix_ base vs a = vix_ base vs b <-> key a = key b.
  Proof.
    intros base vs a b A B. unfold vix_, vix.
    destruct (gindex_in s_keyb keyb_spec key vs a A) as [i I], (gindex_in s_keyb keyb_spec key vs b B) as [j J].
    split.
    - rewrite I, J. cbn. intros E. assert (i = j) by lia. subst j. eapply (gindex_inj s_keyb keyb_spec); eauto.
    - intros E. rewrite E. auto.
  Qed.
  Lemma im_nth : forall base vs im i, map Some im = map (vix base vs) vs ->
    nth_error im i = option_map (vix_ base vs) (s_nth vs i).
  Proof.
    intros base vs im i H. rewrite s_nth_nth_error.
    assert (E : option_map Some (nth_error im i) = option_map (vix base vs) (nth_error vs i)) by (rewrite <- !nth_error_map, H; auto).
    destruct (nth_error vs i) as [v|], (nth_error im i) as [ip|]; cbn in *; try discriminate; auto.
    injection E as E. unfold vix_. rewrite <- E. auto.
  Qed.
  Lemma s_nth_In : forall A (l : list A) i a, s_nth l i = Some a -> In a l.
  Proof. intros. rewrite s_nth_nth_error in H. eapply nth_error_In; eauto. Qed.

  Lemma imp_faces_spec : forall base vs im fs seen sn m,
    map Some im = map (vix base vs) vs -> zok3 seen ->
    (forall a b c, In a vs -> In b vs -> In c vs ->
       find3 (Z.of_N (vix_ base vs a), Z.of_N (vix_ base vs b), Z.of_N (vix_ base vs c)) seen =
       if existsb (s_key3b (s_key3 key (a, b, c))) sn then Some Datatypes.tt else None) ->
    match imp_faces im fs seen m, s_faces vs fs with
    | Ret m', Some l => m_points m' = m_points m /\
        map idx (m_tris m') = map idx (m_tris m) ++ map (map3 (vix_ base vs)) (s_firsts s_key3b (s_key3 key) sn l)
    | UB, None => True
    | _, _ => False
    end.
  Proof.
    intros base vs im fs. induction fs as [|f r IH]; intros seen sn m H O SE.
    - cbn. rewrite app_nil_r. auto.
    - destruct f as [|i [|j [|k [|? ?]]]]; cbn [imp_faces s_faces]; try (apply (IH seen sn m H O SE)).
      rewrite !(im_nth _ _ _ _ H).
      destruct (s_nth vs (N.to_nat i)) as [a|] eqn:A; cbn [option_map or_ub obind]; auto.
      destruct (s_nth vs (N.to_nat j)) as [b|] eqn:B; cbn [option_map or_ub obind]; auto.
      destruct (s_nth vs (N.to_nat k)) as [c|] eqn:C; cbn [option_map or_ub obind]; auto.
      apply s_nth_In in A, B, C. rewrite (SE a b c A B C).
      destruct (existsb (s_key3b (s_key3 key (a, b, c))) sn) eqn:E.
      + specialize (IH seen sn m H O SE). destruct (imp_faces im r seen m) as [m'| | |], (s_faces vs r) as [l|]; auto.
        cbn [s_firsts]. rewrite E. auto.
      + assert (SE' : forall a0 b0 c0, In a0 vs -> In b0 vs -> In c0 vs ->
          find3 (Z.of_N (vix_ base vs a0), Z.of_N (vix_ base vs b0), Z.of_N (vix_ base vs c0))
            (set3 (Z.of_N (vix_ base vs a), Z.of_N (vix_ base vs b), Z.of_N (vix_ base vs c)) Datatypes.tt seen) =
          if existsb (s_key3b (s_key3 key (a0, b0, c0))) (s_key3 key (a, b, c) :: sn) then Some Datatypes.tt else None).
        { intros a0 b0 c0 A0 B0 C0. rewrite find3_set3 by auto. rewrite SE by auto. cbn [existsb].
          destruct (s_keyb (Some (Z.of_N (vix_ base vs a), Z.of_N (vix_ base vs b), Z.of_N (vix_ base vs c)))
                     (Some (Z.of_N (vix_ base vs a0), Z.of_N (vix_ base vs b0), Z.of_N (vix_ base vs c0)))) eqn:Q.
          - apply keyb_spec in Q. injection Q as Q1 Q2 Q3. apply N2Z.inj in Q1, Q2, Q3.
            apply vix_inj in Q1; auto. apply vix_inj in Q2; auto. apply vix_inj in Q3; auto.
            replace (s_key3b (s_key3 key (a0, b0, c0)) (s_key3 key (a, b, c))) with true; auto.
            symmetry. apply key3b_spec. cbn. congruence.
          - replace (s_key3b (s_key3 key (a0, b0, c0)) (s_key3 key (a, b, c))) with false; auto.
            symmetry. destruct (s_key3b _ _) eqn:Z; auto. apply key3b_spec in Z. cbn in Z. injection Z as Z1 Z2 Z3.
            assert (QQ : vix_ base vs a = vix_ base vs a0) by (apply vix_inj; auto).
            assert (QQ' : vix_ base vs b = vix_ base vs b0) by (apply vix_inj; auto).
            assert (QQ'' : vix_ base vs c = vix_ base vs c0) by (apply vix_inj; auto).
            rewrite QQ, QQ', QQ'', (eqb_same s_keyb keyb_spec) in Q. discriminate Q. }
        specialize (IH _ _ (addTriangle m (vix_ base vs a) (vix_ base vs b) (vix_ base vs c)) H (zok3_set _ Datatypes.tt _ O) SE').
        destruct (imp_faces im r _ _) as [m'| | |], (s_faces vs r) as [l|]; auto.
        destruct IH as [IH1 IH2]. split; [exact IH1|]. rewrite IH2. cbn [s_firsts]. rewrite E.
        unfold addTriangle. cbn [invalidate m_tris]. rewrite map_app, <- app_assoc. auto.
  Qed.

  Lemma faces_in : forall A (vs : list A) fs l a b c, s_faces vs fs = Some l -> In (a, b, c) l -> In a vs /\ In b vs /\ In c vs.
  Proof.
    induction fs as [|f r IH]; cbn [s_faces]; intros l a b c H I.
    - injection H as <-. destruct I.
    - destruct f as [|i [|j [|k [|? ?]]]]; try (eapply IH; eassumption).
      destruct (s_nth vs (N.to_nat i)) as [x|] eqn:X; [|discriminate].
      destruct (s_nth vs (N.to_nat j)) as [y|] eqn:Y; [|discriminate].
      destruct (s_nth vs (N.to_nat k)) as [z|] eqn:Z; [|discriminate].
      destruct (s_faces vs r) as [l'|]; [|discriminate]. injection H as <-. destruct I as [[= <- <- <-]|I].
      + apply s_nth_In in X, Y, Z. auto.
      + eapply IH; eauto.
  Qed.

  Lemma vix_point : forall base vs v, In v vs ->
    s_nth (base ++ map place (firsts vs)) (N.to_nat (vix_ (length base) vs v)) = Some (place (s_rep key vs v)).
  Proof.
    intros base vs v I. destruct (gindex_in s_keyb keyb_spec key vs v I) as [j J]. unfold vix_, vix. rewrite J. cbn [option_map].
    rewrite s_nth_nth_error, Nnat.Nat2N.id, nth_error_app2 by lia.
    replace (length base + j - length base) with j by lia. rewrite nth_error_map.
    destruct (gindex_some s_keyb keyb_spec _ _ _ _ J) as [q [Q [_ F]]]. rewrite Q. cbn. do 2 f_equal.
    rewrite (gfind_firsts s_keyb keyb_spec) in F. unfold s_rep. rewrite F. auto.
  Qed.
  Lemma vix_soup : forall base vs l, (forall a b c, In (a, b, c) l -> In a vs /\ In b vs /\ In c vs) ->
    s_soup (base ++ map place (firsts vs)) (map (map3 (vix_ (length base) vs)) l) =
    Some (map (map3 (fun v => place (s_rep key vs v))) l).
  Proof.
    induction l as [|[[a b] c] r IH]; intros H; cbn [map map3 s_soup]; auto.
    destruct (H a b c (or_introl eq_refl)) as [A [B C]]. rewrite !vix_point by auto. rewrite IH; auto.
    intros a' b' c' I. apply H. right; auto.
  Qed.

  Lemma imp_mesh_spec : forall (am : aimesh T) (m : mesh T) l0,
    (N.of_nat (length (m_points m) + length (am_verts am)) < 2 ^ 32)%N ->
    s_soup (m_points m) (map idx (m_tris m)) = Some l0 ->
    match imp_mesh pose scale transform am m with
    | Ret m' => s_am_ok key am /\ m_points m' = m_points m ++ s_inst_points key place am /\
        exists l, s_inst_soup key place am = Some l /\ s_soup (m_points m') (map idx (m_tris m')) = Some (l0 ++ l)
    | UB => ~ s_am_ok key am
    | _ => False
    end.
  Proof.
    intros am m l0 S M. unfold imp_mesh, s_am_ok.
    assert (I0 : iv_inv (m_points m) (m_tris m) [] [] [] m).
    { constructor; auto. cbn. rewrite app_nil_r; auto. apply zok3_nil. intros [[x y] z]. reflexivity. }
    pose proof (imp_verts_spec (am_verts am) (m_points m) (m_tris m) [] [] [] m S I0) as V.
    destruct (imp_verts pose scale transform (am_verts am) [] [] m) as [[im m1]| | |]; cbn [obind]; auto.
    - destruct V as [V [xyz [V1 V2 V3 V4 V5]]]. cbn [app] in *.
      assert (SE : forall a b c, In a (am_verts am) -> In b (am_verts am) -> In c (am_verts am) ->
        find3 (Z.of_N (vix_ (length (m_points m)) (am_verts am) a), Z.of_N (vix_ (length (m_points m)) (am_verts am) b), Z.of_N (vix_ (length (m_points m)) (am_verts am) c)) [] =
        if existsb (s_key3b (s_key3 key (a, b, c))) [] then Some Datatypes.tt else None) by (intros; reflexivity).
      pose proof (imp_faces_spec (length (m_points m)) (am_verts am) im (am_faces am) [] [] m1 V5 zok3_nil SE) as F.
      destruct (imp_faces im (am_faces am) [] m1) as [m'| | |]; destruct (s_faces (am_verts am) (am_faces am)) as [l|] eqn:SF; try contradiction.
      + destruct F as [F1 F2]. split; [split; auto; discriminate|]. split; [rewrite F1, V1; auto|].
        unfold s_inst_soup. rewrite SF. cbn [option_map]. eexists. split; [reflexivity|].
        rewrite F1, F2, V1, V2, soup_app_ts. erewrite soup_app_pts by eauto.
        rewrite vix_soup; auto. intros a b c I. apply (faces_in _ _ _ _ a b c SF). eapply gfirsts_in; eauto.
      + intros [_ H]. congruence.
    - intros [H _]. destruct V as [v [I K]]. apply (H v I K).
  Qed.
End Imp.

Section Tree.
  Context {T : Type} {NT : Num T}.
  Variables (ams : list (aimesh T)) (parent : trans3 T) (scale : vec3 T) (transform : bool).
  Notation key := (imp_key scale).
  Definition pose_of (ch : list (trans3 T)) : trans3 T := fold_left tmul ch parent.
  Definition mplace (ch : list (trans3 T)) : vec3 T -> vec3 T := imp_point (pose_of ch) scale transform.

  (** result of a loop over instances *)
  Definition res (l : list (list (trans3 T) * N)) (m : mesh T) (o : outcome (mesh T)) : Prop :=
    forall l0, s_soup (m_points m) (map idx (m_tris m)) = Some l0 ->
    (N.of_nat (length (m_points m) + s_nverts ams (map snd l)) < 2 ^ 32)%N ->
    match o with
    | Ret m' => (forall ch i, In (ch, i) l -> s_inst_ok key ams i) /\
        m_points m' = m_points m ++ s_all_points key mplace ams l /\
        exists s, s_all_soup key mplace ams l = Some s /\ s_soup (m_points m') (map idx (m_tris m')) = Some (l0 ++ s)
    | UB => ~ (forall ch i, In (ch, i) l -> s_inst_ok key ams i)
    | _ => False
    end.

  Lemma all_points_app : forall pl l1 l2, s_all_points key pl ams (l1 ++ l2) = s_all_points key pl ams l1 ++ s_all_points key pl ams l2.
  Proof. induction l1 as [|[ch i] r IH]; cbn; intros; auto. rewrite IH, app_assoc. auto. Qed.
  Lemma all_soup_app : forall pl l1 l2 s1 s2, s_all_soup key pl ams l1 = Some s1 -> s_all_soup key pl ams l2 = Some s2 ->
    s_all_soup key pl ams (l1 ++ l2) = Some (s1 ++ s2).
  Proof.
    induction l1 as [|[ch i] r IH]; cbn; intros l2 s1 s2 H1 H2.
    - injection H1 as <-. auto.
    - destruct (s_nth ams (N.to_nat i)); [|discriminate]. destruct (s_inst_soup key (pl ch) a); [|discriminate].
      destruct (s_all_soup key pl ams r); [|discriminate]. injection H1 as <-. erewrite IH by eauto. rewrite app_assoc. auto.
  Qed.
  Lemma nverts_app : forall a b, s_nverts ams (a ++ b) = s_nverts ams a + s_nverts ams b.
  Proof. unfold s_nverts. induction a; cbn; intros; auto. rewrite IHa. lia. Qed.
  Lemma all_points_le : forall l, length (s_all_points key mplace ams l) <= s_nverts ams (map snd l).
  Proof.
    unfold s_nverts. induction l as [|[ch i] r IH]; cbn [s_all_points map snd fold_right]; auto.
    rewrite app_length. destruct (s_nth ams (N.to_nat i)) as [am|]; cbn [length]; [|lia].
    unfold s_inst_points. rewrite map_length. pose proof (gfirsts_le s_keyb key (am_verts am) []). lia.
  Qed.

  Lemma res_nil : forall m, res [] m (Ret m).
  Proof. intros m l0 M S. cbn. split; [intros ? ? []|]. split; [rewrite app_nil_r; auto|]. exists []. rewrite app_nil_r. auto. Qed.
  Lemma res_app : forall l1 l2 m o k,
    res l1 m o -> (forall m', res l2 m' (k m')) -> res (l1 ++ l2) m (obind o k).
  Proof.
    intros l1 l2 m o k H1 H2 l0 M S. rewrite map_app, nverts_app in S.
    specialize (H1 l0 M). assert (S1 : (N.of_nat (length (m_points m) + s_nverts ams (map snd l1)) < 2 ^ 32)%N) by lia.
    specialize (H1 S1). destruct o as [m'| | |]; cbn [obind]; auto.
    - destruct H1 as [O1 [P1 [s1 [Q1 R1]]]]. specialize (H2 m' _ R1).
      assert (S2 : (N.of_nat (length (m_points m') + s_nverts ams (map snd l2)) < 2 ^ 32)%N).
      { rewrite P1, app_length. pose proof (all_points_le l1). lia. }
      specialize (H2 S2). destruct (k m') as [m2| | |]; auto.
      + destruct H2 as [O2 [P2 [s2 [Q2 R2]]]]. split; [|split].
        * intros ch i I. apply in_app_or in I. destruct I; eauto.
        * rewrite P2, P1, all_points_app, app_assoc. auto.
        * exists (s1 ++ s2). split; [apply all_soup_app; auto|rewrite R2, app_assoc; auto].
      + intros H. apply H2. intros ch i I. apply (H ch i). apply in_or_app. auto.
    - intros H. apply H1. intros ch i I. apply (H ch i). apply in_or_app. auto.
  Qed.
  Lemma res_insts : forall ch is_ m, res (map (fun i => (ch, i)) is_) m (imp_insts ams (pose_of ch) scale transform is_ m).
  Proof.
    intros ch. induction is_ as [|i r IH]; intros m; cbn [map imp_insts]. apply res_nil.
    change ((ch, i) :: map (fun i0 => (ch, i0)) r) with ([(ch, i)] ++ map (fun i0 => (ch, i0)) r).
    destruct (nth_error ams (N.to_nat i)) as [am|] eqn:A; cbn [or_ub obind].
    - apply res_app; [|auto]. intros l0 M S. cbn in S. rewrite s_nth_nth_error, A in S. rewrite Nat.add_0_r in S.
      pose proof (imp_mesh_spec (pose_of ch) scale transform am m l0 S M) as H.
      destruct (imp_mesh (pose_of ch) scale transform am m) as [m'| | |]; auto.
      + destruct H as [H1 [H2 [l [H3 H4]]]]. split; [|split].
        * intros ch' i' [[= <- <-]|[]]. exists am. rewrite s_nth_nth_error. auto.
        * cbn. rewrite s_nth_nth_error, A, app_nil_r. auto.
        * exists l. cbn. rewrite s_nth_nth_error, A. fold (mplace ch). unfold mplace. rewrite H3, app_nil_r. auto.
      + intros H'. apply H. destruct (H' ch i (or_introl eq_refl)) as [am' [A' O]]. rewrite s_nth_nth_error, A in A'. injection A' as <-. auto.
    - intros l0 M S. cbn. intros H. destruct (H ch i (or_introl eq_refl)) as [am' [A' O]]. rewrite s_nth_nth_error, A in A'. discriminate.
  Qed.

  Fixpoint node_ind (P : ainode T -> Prop)
      (H : forall tf kids ms, (forall k, In k kids -> P k) -> P (AiNode tf kids ms)) (n : ainode T) : P n :=
    match n with
    | AiNode tf kids ms => H tf kids ms
        ((fix go (l : list (ainode T)) : forall k, In k l -> P k :=
          match l return forall k, In k l -> P k with
          | [] => fun k (I : In k []) => match I with end
          | a :: r => fun k I => match I with or_introl E => eq_ind a P (node_ind P H a) k E | or_intror I' => go r k I' end
          end) kids)
    end.

  Lemma res_tree : forall n ch m, res (s_insts ch n) m (constructMesh ams n (pose_of ch) scale transform m).
  Proof.
    induction n as [tf kids ms IH] using node_ind. intros ch m. cbn [constructMesh s_insts].
    replace (tmul (pose_of ch) tf) with (pose_of (ch ++ [tf])) by (unfold pose_of; rewrite fold_left_app; auto).
    apply res_app; [|intros; apply res_insts].
    revert m. induction kids as [|k r IHr]; intros m; cbn [flat_map]. apply res_nil.
    apply res_app; [apply IH; left; auto|]. intros m'. apply IHr. intros k' K'. apply IH. right; auto.
  Qed.
End Tree.
