(** * C68: concurrent const queries *)
From Coq Require Import ZArith NArith List Bool Lia.
From Verif Require Import Num MathTypes Outcome Mesh Box ShapeQuery Conc Spec NumOrd P_Mesh P_Conc.
Import ListNotations.

(** ** One thread alone: the access-level programs compute what the models of the member functions compute, every answer is a
    function of points and triangles only, and the caches stay right *)
Lemma query_alone : forall (T : Type) (NT : Num T) (NO : NumOrd T) (m : mesh T) (s : shape T) q,
  coherent s -> m_points m = m_points (s_mesh s) -> m_tris m = m_tris (s_mesh s) ->
  match run_alone (p_query m q) s with
  | Ret (a, s') => seq_ans s q = Ret a /\ coherent s' /\ same_soup s s'
  | UB => forall a, seq_ans s q <> Ret a
  | _ => False
  end.
Proof.
  intros T NT NO m s q C EP ET.
  assert (K1 : coherent (with_mesh s (snd (getSquaredMaxRadius (s_mesh s)))) /\ same_soup s (with_mesh s (snd (getSquaredMaxRadius (s_mesh s))))).
  { split; [|split; reflexivity]. apply coh_mesh; auto. apply inv_getSq. apply C. }
  assert (K2 : forall s, coherent s -> coherent (with_mesh s (snd (getMaxRadius (s_mesh s)))) /\ same_soup s (with_mesh s (snd (getMaxRadius (s_mesh s))))).
  { intros t Ct. destruct (r_keeps (s_mesh t)) as [A B]. split; [|split; auto]. apply coh_mesh; auto. apply inv_getR. apply Ct. }
  assert (K3 : forall s, coherent s -> m_points m = m_points (s_mesh s) -> m_tris m = m_tris (s_mesh s) -> forall p,
    match run_alone (p_contains m p) s with
    | Ret (b, s') => mesh_contains (s_mesh s) p = Ret b /\ coherent s' /\ same_soup s s'
    | UB => forall b, mesh_contains (s_mesh s) p <> Ret b
    | _ => False end).
  { intros t Ct EPt ETt p. unfold p_contains. rewrite run_bind, run_sq by auto. cbn [obind].
    set (t1 := with_mesh t (snd (getSquaredMaxRadius (s_mesh t)))).
    assert (C1 : coherent t1) by (apply coh_mesh; auto; apply inv_getSq; apply Ct).
    unfold mesh_contains. destruct (nltb _ _); [cbn; split; auto; split; auto; split; reflexivity|].
    rewrite run_bind, run_r by auto. cbn [obind].
    destruct (K2 t1 C1) as [C2 S2].
    assert (E : fst (getMaxRadius (s_mesh t1)) = fst (getMaxRadius (s_mesh t))).
    { rewrite !getR_spec; [reflexivity|apply Ct|apply C1]. }
    rewrite E, EPt, ETt. destruct (contains_loop _ _ _ _ _) as [b| | |]; cbn; auto; try (intros; discriminate). }
  destruct q; cbn [p_query seq_ans]; rewrite run_bind.
  - rewrite run_sq by auto. cbn. auto.
  - rewrite run_r by auto. cbn. split; auto.
  - rewrite run_tri by auto. pose proof (getTriangles_spec (s_mesh s) (proj1 C)) as G.
    destruct (getTriangles (s_mesh s)) as [[l m']| | |]; cbn; auto; [|intros; discriminate].
    destruct G as [_ [A [B I]]]. split; auto. split; [apply coh_mesh; auto|split; auto].
  - rewrite run_bb by auto. cbn [obind]. unfold shape_bbox. destruct C as [C D].
    destruct (s_bbv s) eqn:V; cbn.
    + split; auto. split; [split; auto|split; auto].
    + destruct (bb_of_points (m_points (s_mesh s))) as [a b] eqn:E. cbn. split; auto. split; [split; auto|split; auto].
  - pose proof (K3 s C EP ET p) as K. destruct (run_alone (p_contains m p) s) as [[b s']| | |]; cbn; auto.
    + destruct K as [K [K' K'']]. rewrite K. auto.
    + intros a E. destruct (mesh_contains (s_mesh s) p) as [b| | |]; [exact (K b eq_refl)|discriminate E..].
  - unfold p_sphere. rewrite run_bind, run_r by auto. cbn [obind].
    destruct (K2 s C) as [C1 S1]. set (s1 := with_mesh s (snd (getMaxRadius (s_mesh s)))) in *.
    unfold mesh_sphere. destruct (nltb _ _); [cbn; auto|]. rewrite run_bind, EP, ET.
    destruct (if nltb n0 radius then _ else _) as [h| | |]; cbn [lift run_alone obind]; try (intros; discriminate).
    destruct h; [cbn; auto|].
    assert (X : m_points m = m_points (s_mesh s1) /\ m_tris m = m_tris (s_mesh s1)).
    { destruct S1 as [A B]. rewrite A, B. auto. }
    pose proof (K3 s1 C1 (proj1 X) (proj2 X) p) as K.
    assert (EC : mesh_contains (s_mesh s1) p = mesh_contains (s_mesh s) p).
    { unfold mesh_contains. destruct S1 as [A B]. rewrite A, B, !getSq_spec, !getR_spec, A; auto; try apply C; apply C1. }
    rewrite EC in K. destruct (run_alone (p_contains m p) s1) as [[b s']| | |]; cbn [run_alone obind]; auto.
    + destruct K as [K [K' [K1' K2']]]. rewrite K. split; auto. split; auto. destruct S1. split; congruence.
    + intros a E. destruct (mesh_contains (s_mesh s) p) as [b| | |]; [exact (K b eq_refl)|discriminate E..].
Qed.
Theorem C68_sequential : forall (T : Type) (NT : Num T) (NO : NumOrd T) (s : shape T) (qs : list query), coherent s ->
  match run_alone (p_thread (s_mesh s) qs) s with
  | Ret (l, s') => Forall2 (fun q a => spec_ans (m_points (s_mesh s)) (m_tris (s_mesh s)) q = Ret a) qs l /\ coherent s' /\ same_soup s s'
  | UB => exists q, In q qs /\ forall a, spec_ans (m_points (s_mesh s)) (m_tris (s_mesh s)) q <> Ret a
  | _ => False
  end.
Proof.
  intros T NT NO s qs C. set (m := s_mesh s) at 1.
  assert (H : forall s', coherent s' -> same_soup s s' ->
    match run_alone (p_thread m qs) s' with
    | Ret (l, s'') => Forall2 (fun q a => spec_ans (m_points m) (m_tris m) q = Ret a) qs l /\ coherent s'' /\ same_soup s s''
    | UB => exists q, In q qs /\ forall a, spec_ans (m_points m) (m_tris m) q <> Ret a
    | _ => False end).
  2:{ apply H; auto. split; reflexivity. }
  induction qs as [|q r IH]; intros s' C' [SP ST].
  - cbn. split; [constructor|]. split; auto. split; auto.
  - cbn [p_thread]. rewrite run_bind.
    pose proof (query_alone T NT NO m s' q C' (eq_sym SP) (eq_sym ST)) as Q.
    rewrite (seq_ans_spec s' q C'), SP, ST in Q.
    destruct (run_alone (p_query m q) s') as [[a s1]| | |]; cbn [obind]; try contradiction.
    + destruct Q as [Q [C1 [P1 T1]]]. rewrite run_bind.
      assert (S1 : same_soup s s1) by (split; congruence). specialize (IH s1 C1 S1).
      destruct (run_alone (p_thread m r) s1) as [[l s2]| | |]; cbn; auto.
      * destruct IH as [F K]. split; auto.
      * destruct IH as [q' [I N]]. exists q'. auto.
    + exists q. split; [left; auto|exact Q].
Qed.

(** ** Warm caches: every interleaving of any number of threads gives the sequential answers, changes nothing and has no race *)
Theorem C68_warm_partial : forall (T : Type) (NT : Num T) (s : shape T) (qss : list (list query)) (sched : list nat),
  (s_bbv s = true -> (s_bbmin s, s_bbmax s) = bb_of_points (m_points (s_mesh s))) ->
  Forall (Forall (warm s False)) qss ->
  let c := exec (start s qss) sched in
  fst c = s /\ ~ race c /\
  forall i qs p, nth_error qss i = Some qs -> nth_error (snd c) i = Some p ->
    (forall l, p = Done l -> Forall2 (fun q a => seq_ans s q = Ret a) qs l) /\
    (p = Bad -> exists q, In q qs /\ forall a, seq_ans s q <> Ret a).
Proof.
  intros T NT s qss sched C W c.
  assert (C' : s_bbv s = true -> s_bbmin s = fst (bb_of_points (m_points (s_mesh s))) /\ s_bbmax s = snd (bb_of_points (m_points (s_mesh s)))).
  { intros V. rewrite <- (C V). auto. }
  pose proof (all_exec s False _ _ sched _ (start_safe s False qss W C')) as [M [L1 [L2 H]]]. fold c in M, L1, H.
  assert (LQ : length (snd c) = length qss) by (rewrite L1; apply map_length).
  assert (H' : forall i qs p, nth_error qss i = Some qs -> nth_error (snd c) i = Some p ->
    exists f, safe s False (some_bad s qs) (fun _ => answers s qs) f p).
  { intros i qs p N P. destruct (H i p (some_bad s qs) (answers s qs) P) as [f [_ S]]; eauto.
    rewrite nth_error_map, N. auto. rewrite nth_error_map, N. auto. }
  split; [|split].
  - destruct M as [_ [_ [_ M]]]. apply M. auto.
  - intros [i [j [p [q [l [w [w' [_ [Pi [Pj [Ai [Aj O]]]]]]]]]]]].
    assert (X : forall i p, nth_error (snd c) i = Some p -> exists qs f, safe s False (some_bad s qs) (fun _ => answers s qs) f p).
    { intros i' p' Pi'. destruct (nth_error qss i') as [qs|] eqn:N.
      - destruct (H' _ _ _ N Pi') as [f S]. eauto.
      - apply nth_error_None in N. assert (i' < length (snd c))%nat by (apply nth_error_Some; congruence). lia. }
    destruct (X _ _ Pi) as [qi [fi Si]]. destruct (X _ _ Pj) as [qj [fj Sj]].
    rewrite (safe_nowrite s False _ _ _ _ _ _ _ (fun x => x) Si Ai), (safe_nowrite s False _ _ _ _ _ _ _ (fun x => x) Sj Aj) in O. discriminate O.
  - intros i qs p N P. destruct (H' i qs p N P) as [f S]. split.
    + intros l ->. exact S.
    + intros ->. exact S.
Qed.
Lemma build_length : forall (T : Type) (pts : list (vec3 T)) ts acc l, build_tris pts ts acc = Ret l -> length l = (length acc + length ts)%nat.
Proof.
  intros T pts. induction ts as [|a ts IH]; intros acc l B; cbn in B.
  - injection B as <-. cbn. lia.
  - destruct (point_at pts (ti1 a)), (point_at pts (ti2 a)), (point_at pts (ti3 a)); cbn in B; try discriminate B.
    apply IH in B. rewrite B, app_length. cbn. lia.
Qed.
(** the caches are warmed by asking once (before the threads start), if the answers are not zero *)
Theorem C68_warm_up : forall (T : Type) (NT : Num T) (NO : NumOrd T) (s : shape T) r r2 ts b s', coherent s ->
  run_alone (p_thread (s_mesh s) [QR; QSq; QTri; QBB]) s = Ret ([AT r; AT r2; ATri ts; ABox b], s') ->
  neqb r n0 = false -> neqb r2 n0 = false ->
  coherent s' /\ same_soup s s' /\ forall q, warm s' False q.
Proof.
  intros T NT NO s r r2 ts b s' C H Nr Nr2.
  pose proof (C68_sequential T NT NO s [QR; QSq; QTri; QBB] C) as S. rewrite H in S. destruct S as [_ [C' SS]].
  split; auto. split; auto.
  assert (A : m_r (s_mesh s') = r /\ m_r2 (s_mesh s') = r2 /\ m_tc (s_mesh s') = ts /\ s_bbv s' = true /\
              (m_tc (s_mesh s') = [] -> m_tris (s_mesh s') = [])).
  { cbn [p_thread p_query] in H. rewrite !run_bind in H. rewrite run_r in H by auto. cbn [obind run_alone] in H.
    destruct (r_keeps (s_mesh s)) as [P1 T1]. rewrite !run_bind in H. rewrite run_sq in H by (cbn; auto). cbn [obind run_alone] in H.
    rewrite !run_bind in H. rewrite run_tri in H by (cbn; auto).
    set (m2 := snd (getSquaredMaxRadius (snd (getMaxRadius (s_mesh s))))) in *.
    change (s_mesh (with_mesh _ (snd (getSquaredMaxRadius _)))) with m2 in H.
    assert (Er : m_r m2 = fst (getMaxRadius (s_mesh s))).
    { unfold m2, getMaxRadius. cbn. destruct (neqb (m_r (s_mesh s)) n0); reflexivity. }
    assert (Er2 : m_r2 m2 = fst (getSquaredMaxRadius (snd (getMaxRadius (s_mesh s))))) by reflexivity.
    assert (Pm : m_points m2 = m_points (s_mesh s)) by (unfold m2; cbn; auto).
    destruct (getTriangles m2) as [[l m3]| | |] eqn:G; cbn [obind run_alone] in H; try discriminate H.
    assert (G' : m_tc m3 = l /\ m_r m3 = m_r m2 /\ m_r2 m3 = m_r2 m2 /\ m_tris m3 = m_tris m2 /\ m_points m3 = m_points m2 /\ (l = [] -> m_tris m2 = [])).
    { unfold getTriangles in G. destruct (m_tc m2) as [|t0 q0] eqn:TC.
      - destruct (build_tris (m_points m2) (m_tris m2) []) as [tc| | |] eqn:BT; cbn in G; try discriminate G. injection G as <- <-. cbn.
        repeat split; auto. intros ->. apply build_length in BT. apply length_zero_iff_nil. exact (eq_sym BT).
      - injection G as <- <-. rewrite TC. repeat split; auto. intros E; discriminate E. }
    destruct G' as [G1 [G2 [G3 [G4 [G5 G6]]]]].
    rewrite !run_bind, run_bb in H by (cbn; congruence). cbn [obind run_alone] in H.
    injection H as Hr Hr2 Ht Hb Hs. clear Hb.
    assert (Ea : m_r m3 = r) by (rewrite G2, Er; exact Hr). assert (Eb : m_r2 m3 = r2) by (rewrite G3; exact Hr2). clear Hr Hr2.
    clear C' SS. subst s'. unfold shape_bbox. cbn [s_mesh with_mesh s_bbv].
    destruct (s_bbv s) eqn:V; [|destruct (bb_of_points (m_points m3))]; cbn [fst snd s_mesh s_bbv with_mesh];
      (split; [congruence|]; split; [congruence|]; split; [congruence|]; split; [auto; congruence|]; intros E; rewrite G4; apply G6; congruence). }
  destruct A as [Ar [Ar2 [Atc [Abv Anil]]]].
  intros []; cbn; rewrite ?Ar, ?Ar2; auto.
  destruct (m_tc (s_mesh s')) as [|t q] eqn:E; [right; auto|left; discriminate].
Qed.

(** ** The bounding box is right under every interleaving even if it has not been asked before *)
Theorem C68_bounding_box_partial : forall (T : Type) (NT : Num T) (s : shape T) (qss : list (list query)) (sched : list nat),
  (s_bbv s = true -> (s_bbmin s, s_bbmax s) = bb_of_points (m_points (s_mesh s))) ->
  Forall (Forall (fun q => q = QBB \/ warm s False q)) qss ->
  let c := exec (start s qss) sched in
  forall i qs l, nth_error qss i = Some qs -> nth_error (snd c) i = Some (Done l) -> Forall2 (fun q a => seq_ans s q = Ret a) qs l.
Proof.
  intros T NT s qss sched C W c i qs l N P.
  assert (C' : s_bbv s = true -> s_bbmin s = fst (bb_of_points (m_points (s_mesh s))) /\ s_bbmax s = snd (bb_of_points (m_points (s_mesh s)))).
  { intros V. rewrite <- (C V). auto. }
  assert (W' : Forall (Forall (warm s True)) qss).
  { eapply Forall_impl; [|exact W]. intros a F. eapply Forall_impl; [|exact F]. intros q [-> |Q]; [cbn; auto|].
    destruct q; cbn in *; auto. }
  pose proof (all_exec s True _ _ sched _ (start_safe s True qss W' C')) as [_ [_ [_ H]]]. fold c in H.
  destruct (H i (Done l) (some_bad s qs) (answers s qs) P) as [f [_ S]]; [rewrite nth_error_map, N; auto..|]. exact S.
Qed.

(** ** No query waits for another thread: after a fixed number of own steps it is finished, whatever the others do *)
Lemma within_step : forall (T : Type) (NT : Num T) A (p : prog T A) n s, within (S n) p -> within n (fst (step1 p s)).
Proof.
  intros T NT A [a| |l k|l v k|t k] n s H; cbn in *; auto.
Qed.
Theorem C68_wait_free : forall (T : Type) (NT : Num T) (s : shape T) (qss : list (list query)) (sched : list nat) i qs,
  nth_error qss i = Some qs -> (length qs * bound (s_mesh s) <= count_occ Nat.eq_dec sched i)%nat ->
  exists p, nth_error (snd (exec (start s qss) sched)) i = Some p /\ (p = Bad \/ exists l, p = Done l).
Proof.
  intros T NT s qss sched i qs N.
  assert (H : forall c p n, nth_error (snd c) i = Some p -> within n p -> (n <= count_occ Nat.eq_dec sched i)%nat ->
    exists p, nth_error (snd (exec c sched)) i = Some p /\ (p = Bad \/ exists l : list (ans (T := T)), p = Done l)).
  { induction sched as [|j r IH]; intros c p n P Wp L.
    - cbn in L. assert (n = 0)%nat by lia. subst n. exists p. split; auto. destruct p; cbn in Wp; try contradiction; eauto.
    - cbn [exec fold_left]. change (fold_left step r (step c j)) with (exec (step c j) r).
      cbn [count_occ] in L. unfold step. destruct (nth_error (snd c) j) as [q|] eqn:Q.
      + destruct (step1 q (fst c)) as [q' s1] eqn:S. destruct (Nat.eq_dec j i) as [->|D].
        * rewrite P in Q. injection Q as <-.
          assert (W' : within (pred n) q').
          { destruct n as [|n]; [|change q' with (fst (q', s1)); rewrite <- S; apply within_step; auto].
            destruct p; cbn in Wp; try contradiction; cbn in S; injection S as <- <-; exact I. }
          eapply (IH _ q' (pred n)); auto; [|lia]. cbn [snd]. rewrite nth_upd, Nat.eqb_refl, P. auto.
        * eapply (IH _ p n); auto. cbn [snd]. rewrite nth_upd. apply Nat.eqb_neq in D. rewrite D. auto.
      + destruct (Nat.eq_dec j i) as [->|D]; [congruence|]. eapply IH; eauto. }
  intros L. eapply H; [|apply within_thread|exact L]. cbn. rewrite nth_error_map, N. auto.
Qed.

(** ** Cold caches: there is a data race, for every shape *)
Fixpoint iter1 {T} {NT : Num T} {A} (n : nat) (p : prog T A) (s : shape T) : prog T A * shape T :=
  match n with O => (p, s) | S n => let (p', s') := step1 p s in iter1 n p' s' end.
Lemma reach_bind : forall (T : Type) (NT : Num T) A B C D (p : prog T A) (f : A -> prog T B) (g : B -> prog T C) (h : C -> prog T D) s a s',
  run_alone p s = Ret (a, s') -> exists n, iter1 n (bind (bind (bind p f) g) h) s = (bind (bind (f a) g) h, s').
Proof.
  intros T NT A B C D. induction p as [x| |l k IH|l v k IH|t k IH]; intros f g h s a s' H; cbn in H.
  - injection H as <- <-. exists 0%nat. auto.
  - discriminate H.
  - destruct (IH _ f g h s a s' H) as [n E]. exists (S n). auto.
  - destruct (IH f g h _ a s' H) as [n E]. exists (S n). auto.
  - destruct (IH f g h _ a s' H) as [n E]. exists (S n). auto.
Qed.
Lemma exec_0 : forall (T : Type) (NT : Num T) n p ps (s : shape T),
  exec (s, p :: ps) (repeat 0%nat n) = let (p', s') := iter1 n p s in (s', p' :: ps).
Proof.
  intros T NT. induction n as [|n IH]; intros p ps s; auto. cbn [repeat exec fold_left iter1].
  unfold step at 2. cbn [snd nth_error fst]. destruct (step1 p s) as [p' s']. cbn [upd]. exact (IH p' ps s').
Qed.
Theorem C68_race_refuted : forall (T : Type) (NT : Num T) (s : shape T) (q : query),
  match q with
  | QSq => neqb (m_r2 (s_mesh s)) n0 = true /\ m_points (s_mesh s) <> []
  | QR => neqb (m_r (s_mesh s)) n0 = true
  | QTri => m_tc (s_mesh s) = [] /\ exists t r a b c, m_tris (s_mesh s) = t :: r /\ point_at (m_points (s_mesh s)) (ti1 t) = Some a /\
      point_at (m_points (s_mesh s)) (ti2 t) = Some b /\ point_at (m_points (s_mesh s)) (ti3 t) = Some c
  | QBB => s_bbv s = false
  | _ => False
  end -> exists sched, race (exec (start s [[q]; [q]]) sched).
Proof.
  intros T NT s q H. destruct q; try contradiction.
  - destruct H as [Z P]. destruct (m_points (s_mesh s)) as [|p r] eqn:E; [congruence|].
    destruct (nltb (m_r2 (s_mesh s)) (vlength2 p)) eqn:L.
    + exists [0; 0]%nat. unfold exec, start, race. cbn. rewrite Z, E. cbn. rewrite L. cbn.
      exists 0%nat, 1%nat. do 2 eexists. exists LR2, true, false. repeat split; try reflexivity; auto.
    + exists [0; 0; 0]%nat. unfold exec, start, race. cbn. rewrite Z, E. cbn. rewrite L. cbn.
      exists 0%nat, 1%nat. do 2 eexists. exists LR2, true, false. repeat split; try reflexivity; auto.
  - (* thread 0 runs up to its write of the radius *)
    set (m := s_mesh s) in *.
    destruct (reach_bind T NT _ _ _ _ (p_sq m) (fun x => Wr LR (nsqrt x) (Rd LR (fun c : T => Done c))) (fun x => Done (AT x))
       (fun a => bind (Done []) (fun l => Done (a :: l))) s _ _ (run_sq m s eq_refl)) as [n E].
    exists (0 :: repeat 0 n)%nat.
    assert (X : exec (start s [[QR]; [QR]]) (0 :: repeat 0 n)%nat =
      exec (s, [bind (bind (bind (p_sq m) (fun x => Wr LR (nsqrt x) (Rd LR (fun c : T => Done c)))) (fun x => Done (AT x)))
       (fun a => bind (Done []) (fun l => Done (a :: l))); p_thread m [QR]]) (repeat 0%nat n)).
    { cbn [exec fold_left]. f_equal. unfold start, step. cbn [map snd nth_error fst]. cbn [p_thread p_query]. unfold p_r at 1.
      cbn [bind step1]. change (get LR s) with (m_r m). rewrite H. reflexivity. }
    rewrite X, (exec_0 T NT), E. cbn [bind]. exists 0%nat, 1%nat. do 2 eexists. exists LR, true, false.
    split; [discriminate|]. split; [reflexivity|]. split; [reflexivity|]. split; [reflexivity|]. split; reflexivity.
  - destruct H as [E [t [r [a [b [c [ET [A [B C]]]]]]]]].
    exists [0; 1]%nat. unfold exec, start, race. cbn. rewrite ?E, ?ET. cbn. rewrite ?A, ?B, ?C. cbn. rewrite ?E. cbn. rewrite ?A, ?B, ?C. cbn.
    exists 0%nat, 1%nat. do 2 eexists. exists LTC, true, true. repeat split; try reflexivity; auto.
  - exists [0; 1]%nat. unfold exec, start, race, p_thread, p_query, p_bb. cbn [map]. destruct (bb_of_points (m_points (s_mesh s))) as [a b].
    cbn. rewrite ?H. cbn. rewrite ?H. cbn.
    exists 0%nat, 1%nat. do 2 eexists. exists LMin, true, true. repeat split; try reflexivity; auto.
Qed.

(** ** Cold caches: wrong answers, even if every access were atomic and sequentially consistent *)
Definition rep (l : list (nat * nat)) : list nat := flat_map (fun p => repeat (fst p) (snd p)) l.
Definition done_chk {T} (c : config (T := T)) (i : nat) (k : list (ans (T := T)) -> bool) : bool :=
  match nth_error (snd c) i with Some (Done l) => k l | _ => false end.
Lemma done_ex : forall (T : Type) (c : config (T := T)) i k, done_chk c i k = true -> exists l, nth_error (snd c) i = Some (Done l) /\ k l = true.
Proof. intros T c i k H. unfold done_chk in H. destruct (nth_error (snd c) i) as [[l| | | |]|]; try discriminate H. eauto. Qed.
Definition v64 (x y z : Z) : vec3 F64 := V3 (nofZ x) (nofZ y) (nofZ z).
(** a tetrahedron *)
Definition tet_ops : list (mesh_op F64) :=
  [OAddPoint (v64 1 0 0); OAddPoint (v64 0 2 0); OAddPoint (v64 0 0 4); OAddPoint (v64 (-2) (-2) (-2));
   OAddTriangle 0 1 2; OAddTriangle 0 3 1; OAddTriangle 1 3 2; OAddTriangle 2 3 0].
Definition tet : shape F64 :=
  shape_setMesh shape_new (match mesh_run mesh_new tet_ops with Ret m => m | _ => mesh_new end).

(** a reader that finds the cache being computed returns a radius that is too small, once and for all *)
Theorem C68_radius_refuted : exists (s : shape F64) sched r x, s_mesh s = s_mesh tet /\
  seq_ans s QSq = Ret (AT r) /\ nth_error (snd (exec (start s [[QSq]; [QSq]]) sched)) 1 = Some (Done [AT x]) /\ nltb x r = true.
Proof.
  exists tet, (rep [(0, 3); (1, 2)])%nat. eexists.
  destruct (done_ex F64 (exec (start tet [[QSq]; [QSq]]) (rep [(0, 3); (1, 2)])%nat) 1
    (fun l => match l with [AT x] => nltb x (fst (getSquaredMaxRadius (s_mesh tet))) | _ => false end)) as [l [N C]]; [vm_compute; reflexivity|].
  destruct l as [|[x|x|x|x] [|y z]]; try discriminate C. exists x. split; [reflexivity|]. split; [reflexivity|]. split; [exact N|exact C].
Qed.
(** two first callers of getTriangles: both fill the cache and every triangle is there twice, for all later queries *)
Theorem C68_triangles_refuted : exists (s : shape F64) sched l ll, s_mesh s = s_mesh tet /\
  seq_ans s QTri = Ret (ATri l) /\ nth_error (snd (exec (start s [[QTri]; [QTri]]) sched)) 1 = Some (Done [ATri ll]) /\
  length ll = (2 * length l)%nat /\ length l = 4%nat.
Proof.
  exists tet, (rep [(0, 1); (1, 1); (0, 5); (1, 5)])%nat.
  destruct (oret_ex _ (seq_ans tet QTri) (fun a => match a with ATri l => Nat.eqb (length l) 4 | _ => false end)) as [a [A CA]]; [vm_compute; reflexivity|].
  destruct (done_ex F64 (exec (start tet [[QTri]; [QTri]]) (rep [(0, 1); (1, 1); (0, 5); (1, 5)])%nat) 1
    (fun l => match l with [ATri x] => Nat.eqb (length x) 8 | _ => false end)) as [l [N C]]; [vm_compute; reflexivity|].
  destruct a as [a|a|a|a]; try discriminate CA. destruct l as [|[x|x|x|x] [|y z]]; try discriminate C.
  apply Nat.eqb_eq in C, CA. exists a, x. split; [reflexivity|]. split; [exact A|]. split; [exact N|]. rewrite C, CA. split; reflexivity.
Qed.
(** a point in the tetrahedron is reported to be outside *)
Theorem C68_contains_refuted : exists (s : shape F64) p sched, s_mesh s = s_mesh tet /\
  seq_ans s (QContains p) = Ret (ABool true) /\
  nth_error (snd (exec (start s [[QSq]; [QContains p]]) sched)) 1 = Some (Done [ABool false]).
Proof.
  exists tet, (V3 n0 (nofZ 1) (nlit 1 2)), (rep [(0, 3); (1, 2)])%nat. split; [reflexivity|]. split.
  - destruct (oret_ex _ (seq_ans tet (QContains (V3 n0 (nofZ 1) (nlit 1 2)))) (fun a => match a with ABool b => b | _ => false end)) as [a [A CA]]; [vm_compute; reflexivity|].
    rewrite A. destruct a as [a|a|a|a]; try discriminate CA. rewrite CA. reflexivity.
  - destruct (done_ex F64 (exec (start tet [[QSq]; [QContains (V3 n0 (nofZ 1) (nlit 1 2))]]) (rep [(0, 3); (1, 2)])%nat) 1
      (fun l => match l with [ABool b] => negb b | _ => false end)) as [l [N C]]; [vm_compute; reflexivity|].
    rewrite N. destruct l as [|[x|x|x|x] [|y z]]; try discriminate C. destruct x; [discriminate C|reflexivity].
Qed.

(** non-vacuity: the tetrahedron, asked once, is warm for all queries; a schedule of two threads runs to the end *)
Example C68_nonvacuous : coherent tet /\ exists l s', run_alone (p_thread (s_mesh tet) [QR; QSq; QTri; QBB]) tet = Ret (l, s') /\
  neqb (m_r (s_mesh s')) n0 = false /\ neqb (m_r2 (s_mesh s')) n0 = false /\ m_tc (s_mesh s') <> [] /\ s_bbv s' = true.
Proof.
  split.
  - split; [|intros E; discriminate E].
    destruct (oret_ex _ (mesh_run (mesh_new : mesh F64) tet_ops) (fun _ => true)) as [m [M _]]; [vm_compute; reflexivity|].
    unfold tet. cbn [shape_setMesh s_mesh]. rewrite M. eapply run_inv; [|exact M]. apply inv_invalidate.
  - destruct (oret_ex _ (run_alone (p_thread (s_mesh tet) [QR; QSq; QTri; QBB]) tet)
      (fun r => (negb (neqb (m_r (s_mesh (snd r))) n0) && negb (neqb (m_r2 (s_mesh (snd r))) n0) &&
        (match m_tc (s_mesh (snd r)) with [] => false | _ => true end) && s_bbv (snd r))%bool)) as [[l s'] [N C]]; [vm_compute; reflexivity|].
    exists l, s'. split; [exact N|]. cbn [snd] in C. apply andb_prop in C. destruct C as [C C4]. apply andb_prop in C. destruct C as [C C3].
    apply andb_prop in C. destruct C as [C1 C2]. apply negb_true_iff in C1, C2. split; [exact C1|]. split; [exact C2|]. split; [|exact C4].
    intros E. rewrite E in C3. discriminate C3.
Qed.
Print Assumptions C68_sequential.
Print Assumptions C68_warm_partial.
Print Assumptions C68_warm_up.
Print Assumptions C68_bounding_box_partial.
Print Assumptions C68_wait_free.
Print Assumptions C68_race_refuted.
Print Assumptions C68_radius_refuted.
Print Assumptions C68_triangles_refuted.
Print Assumptions C68_contains_refuted.
