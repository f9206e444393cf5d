(** Lemmas about src/Mesh.cpp. *)
From Coq Require Import ZArith NArith List Bool Lia Reals Lra.
From Verif Require Import Num MathTypes Outcome Mesh Spec NumOrd.
Import ListNotations.

Lemma s_nth_nth_error : forall A (l : list A) i, s_nth l i = nth_error l i.
Proof. induction l; destruct i; cbn; auto. Qed.

Definition idx (t : triI) : N * N * N := (ti1 t, ti2 t, ti3 t).
Definition tup {T} (t : tri T) : vec3 T * vec3 T * vec3 T := (tp1 t, tp2 t, tp3 t).

Section Generic.
  Context {T : Type} {NT : Num T}.

  Lemma build_tris_spec : forall (pts : list (vec3 T)) ts acc,
    build_tris pts ts acc =
    match s_soup pts (map idx ts) with
    | Some l => Ret (acc ++ map (fun '(a, b, c) => Tri a b c) l)
    | None => UB
    end.
  Proof.
    induction ts as [|[i j k] r IH]; intros acc; cbn [build_tris map s_soup idx].
    - rewrite app_nil_r. reflexivity.
    - cbn [ti1 ti2 ti3]. unfold point_at. rewrite !s_nth_nth_error.
      destruct (nth_error pts (N.to_nat i)); cbn; auto.
      destruct (nth_error pts (N.to_nat j)); cbn; auto.
      destruct (nth_error pts (N.to_nat k)); cbn; auto.
      rewrite IH. destruct (s_soup pts (map idx r)); auto. rewrite <- app_assoc. reflexivity.
  Qed.

  Lemma map_tup_mk : forall l : list (vec3 T * vec3 T * vec3 T), map tup (map (fun '(a, b, c) => Tri a b c) l) = l.
  Proof. intros. rewrite map_map. rewrite <- (map_id l) at 2. apply map_ext. intros [[a b] c]. reflexivity. Qed.
  Lemma map_mk_tup : forall l : list (tri T), map (fun '(a, b, c) => Tri a b c) (map tup l) = l.
  Proof. intros. rewrite map_map. rewrite <- (map_id l) at 2. apply map_ext. intros [a b c]. reflexivity. Qed.

  (** *** caches *)
  Context {O : NumOrd T}.

  (** running maximum in the sense of std::max *)
  Fixpoint s_runmax (acc : T) (l : list T) : T :=
    match l with
    | [] => acc
    | a :: r => s_runmax (if nltb acc a then a else acc) r
    end.
  Definition s_fresh (pts : list (vec3 T)) : T := s_runmax n0 (map vlength2 pts).

  Lemma fold_runmax : forall (pts : list (vec3 T)) a,
    fold_left (fun c p => nmax c (vlength2 p)) pts a = s_runmax a (map vlength2 pts).
  Proof. induction pts; cbn; auto. Qed.

  Lemma runmax_ge : forall l (a : T), s_runmax a l = a \/ nltb a (s_runmax a l) = true.
  Proof.
    induction l as [|x r IH]; cbn; intros a; auto.
    destruct (nltb a x) eqn:E; auto.
    destruct (IH x) as [H|H]; right. rewrite H; auto. eapply nlt_trans; eauto.
  Qed.

  Definition cache_inv (m : mesh T) : Prop :=
    (m_r2 m = n0 \/ m_r2 m = s_fresh (m_points m)) /\
    (m_r m = n0 \/ m_r m = nsqrt (s_fresh (m_points m))) /\
    (m_tc m = [] \/ s_soup (m_points m) (map idx (m_tris m)) = Some (map tup (m_tc m))).

  Lemma inv_invalidate : forall m : mesh T, cache_inv (invalidate m).
  Proof. intros. unfold cache_inv, invalidate; cbn. auto. Qed.

  Lemma getSq_spec : forall m : mesh T, cache_inv m -> fst (getSquaredMaxRadius m) = s_fresh (m_points m).
  Proof.
    intros m [H _]. unfold getSquaredMaxRadius. cbn [fst].
    destruct (neqb (m_r2 m) n0) eqn:E.
    - rewrite fold_runmax. destruct H as [H|H]; rewrite H in *; auto.
      unfold s_fresh in *. destruct (runmax_ge (map vlength2 (m_points m)) n0) as [G|G].
      + rewrite G at 1. reflexivity.
      + apply nlt_neq in G. congruence.
    - destruct H as [H|H]; auto. rewrite H, n0_eq in E. discriminate.
  Qed.

  Lemma inv_getSq : forall m : mesh T, cache_inv m -> cache_inv (snd (getSquaredMaxRadius m)).
  Proof.
    intros m I. pose proof (getSq_spec m I) as G. destruct I as [A [B C]].
    unfold cache_inv, getSquaredMaxRadius in *. cbn [fst snd m_r2 m_r m_tc m_points m_tris] in *. auto.
  Qed.

  Lemma getR_spec : forall m : mesh T, cache_inv m -> fst (getMaxRadius m) = nsqrt (s_fresh (m_points m)).
  Proof.
    intros m I. pose proof (getSq_spec m I) as G. unfold getMaxRadius.
    destruct (neqb (m_r m) n0) eqn:E.
    - destruct (getSquaredMaxRadius m). cbn in *. congruence.
    - cbn. destruct I as [_ [[B|B] _]]; auto. rewrite B, n0_eq in E. discriminate.
  Qed.

  Lemma inv_getR : forall m : mesh T, cache_inv m -> cache_inv (snd (getMaxRadius m)).
  Proof.
    intros m I. pose proof (getSq_spec m I) as G. pose proof (inv_getSq m I) as I'. unfold getMaxRadius.
    destruct (neqb (m_r m) n0) eqn:E; auto.
    unfold getSquaredMaxRadius in *. cbn [fst snd m_r2 m_r m_tc m_points m_tris] in *.
    destruct I' as [A [B C]]. unfold cache_inv in *; cbn [fst snd m_r2 m_r m_tc m_points m_tris] in *. 
    rewrite G in *. auto.
  Qed.

  Lemma getTriangles_spec : forall m : mesh T, cache_inv m ->
    match getTriangles m with
    | Ret (l, m') => s_soup (m_points m) (map idx (m_tris m)) = Some (map tup l) /\
                     m_points m' = m_points m /\ m_tris m' = m_tris m /\ cache_inv m'
    | UB => s_soup (m_points m) (map idx (m_tris m)) = None
    | _ => False
    end.
  Proof.
    intros m [A [B C]]. unfold getTriangles. destruct (m_tc m) as [|t r] eqn:E.
    - rewrite build_tris_spec. destruct (s_soup (m_points m) (map idx (m_tris m))) as [l|] eqn:S; cbn; auto.
      rewrite map_tup_mk. repeat split; auto. unfold cache_inv; cbn. repeat split; auto.
      right. rewrite map_tup_mk. exact S.
    - destruct C as [C|C]; [discriminate|]. repeat split; auto. rewrite E. right. exact C.
  Qed.

  (** *** filterOverlappingVertices *)
  Lemma filter_points_frame : forall olds (m : mesh T) xyz im m1 im',
    filter_points olds m xyz im = Ret (m1, im') ->
    m_tris m1 = m_tris m /\
    ((m_points m1 = m_points m /\ m_r m1 = m_r m /\ m_r2 m1 = m_r2 m /\ m_tc m1 = m_tc m) \/
     (m_r m1 = n0 /\ m_r2 m1 = n0 /\ m_tc m1 = [])).
  Proof.
    induction olds as [|v r IH]; cbn; intros m xyz im m1 im' H.
    - injection H as <- <-. auto 7.
    - destruct (vert_key v) as [k|]; cbn in H; [|discriminate].
      destruct (xmap_find k xyz) as [ip|].
      + eapply IH; eauto.
      + destruct (IH _ _ _ _ _ H) as [H1 H2]. cbn in *. split; auto.
        destruct H2 as [[_ [H3 [H4 H5]]]|H2]; auto.
  Qed.

  Lemma filter_inv : forall m m' : mesh T, cache_inv m -> filterOverlapping m = Ret m' -> cache_inv m'.
  Proof.
    intros m m' I H. unfold filterOverlapping in H.
    destruct (m_points m) as [|v r] eqn:P.
    - cbn in H. destruct (m_tris m) as [|[a b c] ts] eqn:Q.
      + cbn in H. injection H as <-. unfold cache_inv in *. cbn. rewrite P, Q in I. exact I.
      + cbn in H. destruct (nth_error [] (N.to_nat a)) eqn:Z; [destruct (N.to_nat a); discriminate|].
        discriminate.
    - cbn [filter_points] in H. destruct (vert_key v) as [k|]; cbn [or_ub obind] in H; [|discriminate].
      cbn [xmap_find addPoint] in H.
      destruct (filter_points r _ _ _) as [[m1 im]| | |] eqn:F; cbn [obind] in H; try discriminate.
      destruct (remap_tris im (m_tris m1) []) as [ts| | |]; cbn [obind] in H; try discriminate.
      injection H as <-. apply filter_points_frame in F. destruct F as [F1 F2]. unfold cache_inv. cbn in *.
      destruct F2 as [[_ [F3 [F4 F5]]]|[F3 [F4 F5]]]; rewrite F3, F4, F5; auto.
  Qed.

  Lemma step_inv : forall m o (m' : mesh T), cache_inv m -> mesh_step m o = Ret m' -> cache_inv m'.
  Proof.
    intros m o m' I H. destruct o; cbn in H; try (injection H as <-; apply inv_invalidate).
    - apply filter_inv with m; auto.
    - pose proof (getTriangles_spec m I) as G. destruct (getTriangles m) as [[l m1]| | |]; cbn in H; try discriminate.
      injection H as <-. tauto.
    - injection H as <-. apply (inv_getSq m I).
    - injection H as <-. apply (inv_getR m I).
  Qed.

  Lemma run_inv : forall ops m (m' : mesh T), cache_inv m -> mesh_run m ops = Ret m' -> cache_inv m'.
  Proof.
    induction ops as [|o r IH]; cbn; intros m m' I H.
    - injection H as <-. auto.
    - destruct (mesh_step m o) as [m1| | |] eqn:E; cbn in H; try discriminate.
      eapply IH; [|eauto]. eapply step_inv; eauto.
  Qed.

  Lemma new_inv : cache_inv mesh_new.
  Proof. apply inv_invalidate. Qed.
End Generic.

(** *** index stability *)
Section Indices.
  Context {T : Type} {NT : Num T}.

  Definition building (o : mesh_op T) : Prop :=
    match o with OClear | OFilter => False | _ => True end.

  Lemma step_points : forall m o (m' : mesh T), building o -> mesh_step m o = Ret m' ->
    exists l, m_points m' = m_points m ++ l.
  Proof.
    intros m o m' B H. destruct o; cbn in *; try contradiction.
    - injection H as <-. cbn. eauto.
    - injection H as <-. cbn. exists []. rewrite app_nil_r; auto.
    - injection H as <-. cbn. eauto.
    - unfold getTriangles in H. exists []. rewrite app_nil_r. destruct (m_tc m).
      + destruct (build_tris _ _ _); cbn in H; try discriminate. injection H as <-. reflexivity.
      + cbn in H. injection H as <-. reflexivity.
    - injection H as <-. exists []. rewrite app_nil_r. reflexivity.
    - injection H as <-. exists []. rewrite app_nil_r. unfold getMaxRadius. destruct (neqb _ _); reflexivity.
  Qed.

  Lemma run_points : forall ops m (m' : mesh T), Forall building ops -> mesh_run m ops = Ret m' ->
    exists l, m_points m' = m_points m ++ l.
  Proof.
    induction ops as [|o r IH]; cbn; intros m m' B H.
    - injection H as <-. exists []. rewrite app_nil_r; auto.
    - destruct (mesh_step m o) as [m1| | |] eqn:E; cbn in H; try discriminate.
      inversion B; subst. destruct (step_points _ _ _ H2 E) as [l1 L1]. destruct (IH _ _ H3 H) as [l2 L2].
      exists (l1 ++ l2). rewrite L2, L1, app_assoc. reflexivity.
  Qed.

  Lemma u32_small : forall n, (n < 2 ^ 32)%N -> u32 n = n.
  Proof. intros. unfold u32. apply N.mod_small. exact H. Qed.

  Lemma addPoint_at : forall (m : mesh T) p, (N.of_nat (length (m_points m)) < 2^32)%N ->
    s_nth (m_points (snd (addPoint m p))) (N.to_nat (fst (addPoint m p))) = Some p.
  Proof.
    intros. unfold addPoint. cbn [fst snd invalidate m_points].
    rewrite u32_small by auto. rewrite Nnat.Nat2N.id, s_nth_nth_error, nth_error_app2 by lia.
    rewrite Nat.sub_diag. reflexivity.
  Qed.
End Indices.

(** *** concatenation *)
Section Concat.
  Context {T : Type} {NT : Num T}.

  Lemma soup_app_pts : forall (a b : list (vec3 T)) ts l, s_soup a ts = Some l -> s_soup (a ++ b) ts = Some l.
  Proof.
    induction ts as [|[[i j] k] r IH]; cbn; intros l H; auto.
    rewrite !s_nth_nth_error in *.
    destruct (nth_error a (N.to_nat i)) eqn:E1; [|discriminate].
    destruct (nth_error a (N.to_nat j)) eqn:E2; [|discriminate].
    destruct (nth_error a (N.to_nat k)) eqn:E3; [|discriminate].
    destruct (s_soup a r) eqn:E4; [|discriminate].
    rewrite !nth_error_app1 by (apply nth_error_Some; congruence).
    rewrite E1, E2, E3, (IH _ eq_refl). auto.
  Qed.

  Lemma soup_app_ts : forall (p : list (vec3 T)) t1 t2,
    s_soup p (t1 ++ t2) = match s_soup p t1, s_soup p t2 with Some a, Some b => Some (a ++ b) | _, _ => None end.
  Proof.
    induction t1 as [|[[i j] k] r IH]; intros t2; cbn.
    - destruct (s_soup p t2); auto.
    - rewrite IH. destruct (s_nth p (N.to_nat i)), (s_nth p (N.to_nat j)), (s_nth p (N.to_nat k)); auto.
      destruct (s_soup p r); auto. destruct (s_soup p t2); auto.
  Qed.

  Lemma soup_shift : forall (a b : list (vec3 T)) ts l,
    (N.of_nat (length a + length b) < 2^32)%N -> s_soup b ts = Some l ->
    s_soup (a ++ b) (map (fun '(i, j, k) => (u32 (i + N.of_nat (length a)), u32 (j + N.of_nat (length a)), u32 (k + N.of_nat (length a)))) ts) = Some l.
  Proof.
    intros a b ts l S. revert l. induction ts as [|[[i j] k] r IH]; cbn; intros l H; auto.
    rewrite !s_nth_nth_error in *.
    assert (SH : forall i x, nth_error b (N.to_nat i) = Some x ->
       nth_error (a ++ b) (N.to_nat (u32 (i + N.of_nat (length a)))) = Some x).
    { intros i' x E. assert (N.to_nat i' < length b)%nat by (apply nth_error_Some; congruence).
      unfold u32. rewrite N.mod_small by lia. rewrite nth_error_app2 by lia.
      rewrite <- E. f_equal. lia. }
    destruct (nth_error b (N.to_nat i)) eqn:E1; [|discriminate].
    destruct (nth_error b (N.to_nat j)) eqn:E2; [|discriminate].
    destruct (nth_error b (N.to_nat k)) eqn:E3; [|discriminate].
    destruct (s_soup b r) eqn:E4; [|discriminate].
    erewrite !SH by eauto. rewrite (IH _ eq_refl). auto.
  Qed.

  Lemma mesh_add_soup : forall (m o : mesh T) l1 l2,
    (N.of_nat (length (m_points m) + length (m_points o)) < 2^32)%N ->
    s_soup (m_points m) (map idx (m_tris m)) = Some l1 ->
    s_soup (m_points o) (map idx (m_tris o)) = Some l2 ->
    s_soup (m_points (mesh_add m o)) (map idx (m_tris (mesh_add m o))) = Some (l1 ++ l2).
  Proof.
    intros m o l1 l2 S H1 H2. unfold mesh_add. cbn [invalidate m_points m_tris].
    rewrite map_app, soup_app_ts. rewrite (soup_app_pts _ _ _ _ H1).
    rewrite map_map. rewrite u32_small by lia.
    pose proof (soup_shift (m_points m) (m_points o) _ _ S H2) as E. rewrite map_map in E.
    match goal with |- context [map ?f (m_tris o)] => match type of E with context [map ?g (m_tris o)] =>
      rewrite (map_ext f g) by (intros [a b c]; reflexivity) end end.
    rewrite E. reflexivity.
  Qed.

  Lemma soup_valid : forall (p : list (vec3 T)) ts, s_valid (length p) ts <-> exists l, s_soup p ts = Some l.
  Proof.
    induction ts as [|[[i j] k] r IH]; cbn.
    - split; eauto. intros _ i j k [].
    - rewrite !s_nth_nth_error. split.
      + intros V. destruct (proj1 IH) as [l L]. { intros a b c I. apply V. right; auto. }
        destruct (V i j k) as [A [B C]]. left; auto.
        apply nth_error_Some in A, B, C. rewrite L.
        destruct (nth_error p (N.to_nat i)), (nth_error p (N.to_nat j)), (nth_error p (N.to_nat k)); try congruence; eauto.
      + intros [l L]. 
        destruct (nth_error p (N.to_nat i)) eqn:E1; [|discriminate].
        destruct (nth_error p (N.to_nat j)) eqn:E2; [|discriminate].
        destruct (nth_error p (N.to_nat k)) eqn:E3; [|discriminate].
        destruct (s_soup p r) eqn:E4; [|discriminate].
        intros a b c [I|I].
        * injection I as -> -> ->. repeat split; apply nth_error_Some; congruence.
        * apply (proj2 IH); eauto.
  Qed.

  (** *** transformation *)
  Lemma soup_map : forall (f : vec3 T -> vec3 T) p ts,
    s_soup (map f p) ts = option_map (map (fun '(a, b, c) => (f a, f b, f c))) (s_soup p ts).
  Proof.
    induction ts as [|[[i j] k] r IH]; cbn; auto.
    rewrite IH. rewrite !s_nth_nth_error, !nth_error_map.
    destruct (nth_error p (N.to_nat i)), (nth_error p (N.to_nat j)), (nth_error p (N.to_nat k)); cbn; auto.
    destruct (s_soup p r); auto.
  Qed.
End Concat.
