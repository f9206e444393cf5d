(** Composite shapes on doubles, part 2: bounding boxes and bookkeeping of addShape *)
From Coq Require Import ZArith NArith List Bool Lia Reals Lra Psatz.
From Flocq Require Import Core BinarySingleNaN.
From Verif Require Import Num NumOrd MathTypes Outcome Mesh Box Composite Spec SpecComposite SpecRound SpecCompF P_Tac P_Math P_Rot P_Mesh P_MeshGeo P_Box P_BoxMesh P_Composite.
From Verif Require Import P_Round P_Round2 P_Round3 P_OctF P_InsideF P_CompF1.
Import ListNotations.
Local Open Scope R_scope.
Local Notation fin := (is_finite (prec := 53) (emax := 1024)).

(** ** polymorphic bookkeeping *)
Section Poly.
  Context {T : Type} {NT : Num T}.
  Definition pmax (f : vec3 T -> T) (cs : list (vec3 T)) (a : T) : T := fold_left (fun a q => nmax a (f q)) cs a.
  Definition pmin (f : vec3 T -> T) (cs : list (vec3 T)) (a : T) : T := fold_left (fun a q => nmin a (f q)) cs a.
  Definition psoup (m : mesh T) := s_soup (m_points m) (map idx (m_tris m)).
  Definition pmap3 (f : vec3 T -> vec3 T) (l : list (vec3 T * vec3 T * vec3 T)) := map (fun '(a, b, c) => (f a, f b, f c)) l.
  Lemma pcorners_map3 : forall f l, s_corners (pmap3 f l) = map f (s_corners l).
  Proof. induction l as [|[[a b] c] l IH]; auto. change (f a :: f b :: f c :: s_corners (pmap3 f l) = f a :: f b :: f c :: map f (s_corners l)). rewrite IH. reflexivity. Qed.
  Lemma pcorners_app : forall a b : list (vec3 T * vec3 T * vec3 T), s_corners (a ++ b) = s_corners a ++ s_corners b.
  Proof. intros. unfold s_corners. apply flat_map_app. Qed.
  Lemma pcomp_fold : forall pose ts r mn mx, exists r', 
    fold_left (comp_tri pose) ts (r, mn, mx) =
    let cs := map (tapply pose) (s_corners (map tup ts)) in
    (r', V3 (pmin vx cs (vx mn)) (pmin vy cs (vy mn)) (pmin vz cs (vz mn)), V3 (pmax vx cs (vx mx)) (pmax vy cs (vy mx)) (pmax vz cs (vz mx))).
  Proof.
    intros pose. induction ts as [|[a b c] ts IH]; intros r mn mx.
    - exists r. destruct mn, mx. reflexivity.
    - cbn [fold_left]. unfold comp_tri at 2. cbn [tp1 tp2 tp3].
      match goal with |- exists r', fold_left _ _ (?r, ?x, ?y) = _ => destruct (IH r x y) as [r' ->] end. cbv zeta. exists r'. reflexivity.
  Qed.
  Lemma padd : forall (c : comp T) ch pose lc lch, psoup (c_mesh c) = Some lc -> psoup (ch_mesh ch) = Some lch -> cache_inv (ch_mesh ch) ->
    (N.of_nat (length (m_points (c_mesh c)) + length (m_points (ch_mesh ch))) < 2^32)%N ->
    exists c', comp_add c ch pose = Ret c' /\
      c_shapes c' = c_shapes c ++ [(ch, tinverse pose)] /\
      psoup (c_mesh c') = Some (lc ++ pmap3 (tapply pose) lch) /\ cache_inv (c_mesh c') /\
      length (m_points (c_mesh c')) = (length (m_points (c_mesh c)) + length (m_points (ch_mesh ch)))%nat /\
      (let cs := map (tapply pose) (s_corners lch) in
       c_min c' = V3 (pmin vx cs (vx (c_min c))) (pmin vy cs (vy (c_min c))) (pmin vz cs (vz (c_min c))) /\
       c_max c' = V3 (pmax vx cs (vx (c_max c))) (pmax vy cs (vy (c_max c))) (pmax vz cs (vz (c_max c)))) /\
      c_bb c' = box_make (c_min c') (c_max c').
  Proof.
    intros c ch pose lc lch LC LCH I S. unfold comp_add.
    pose proof (getTriangles_spec _ I) as G. unfold psoup in *. destruct (getTriangles (ch_mesh ch)) as [[ts m']| | |]; try contradiction; [|congruence].
    destruct G as [G _]. rewrite LCH in G. injection G as G. cbn [obind fst].
    destruct (pcomp_fold pose ts (c_r c) (c_min c) (c_max c)) as [r' ->]. cbv zeta. rewrite <- G. eexists. split; [reflexivity|].
    cbn [c_shapes c_mesh c_r c_min c_max c_bb].
    split; [reflexivity|]. split.
    { apply mesh_add_soup; auto.
      - cbn [getTransformed m_points]. rewrite map_length. auto.
      - cbn [getTransformed m_points m_tris]. rewrite soup_map, LCH. reflexivity. }
    split; [apply inv_invalidate|]. split.
    { unfold mesh_add. cbn [invalidate m_points getTransformed]. rewrite app_length, map_length. auto. }
    split; [|reflexivity]. auto.
  Qed.
  Lemma pgen_cache : forall mn mx (m : mesh T), cache_inv (generate_mesh mn mx m).
  Proof. intros. rewrite gen_clean, generate_eq. unfold cache_inv, clean. cbn [m_r m_r2 m_tc]. auto. Qed.
  Definition boxsoup (mn mx : vec3 T) : list (vec3 T * vec3 T * vec3 T) :=
    match corners8 mn mx with
    | [p0;p1;p2;p3;p4;p5;p6;p7] => [(p1,p0,p2);(p1,p2,p3);(p4,p5,p6);(p6,p5,p7);(p0,p4,p2);(p2,p4,p6);(p5,p1,p3);(p5,p3,p7);(p0,p1,p4);(p4,p1,p5);(p3,p2,p6);(p3,p6,p7)]
    | _ => []
    end.
  Lemma boxsoup_ok : forall mn mx, s_soup (corners8 mn mx) box_tris = Some (boxsoup mn mx).
  Proof. reflexivity. Qed.
  Lemma pbox_soup : forall mn mx, psoup (b_mesh (box_make mn mx)) = Some (boxsoup mn mx).
  Proof. intros. unfold psoup. rewrite box_make_points, box_make_tris. apply boxsoup_ok. Qed.
  Lemma poany : forall (A : Type) (f : child T * trans3 T -> outcome bool) (P Q : A -> Prop) l cl,
    Forall2 (fun tp ci => exists b, f ci = Ret b /\ (b = true -> P tp) /\ (Q tp -> b = true)) l cl ->
    exists b, oany f cl = Ret b /\ (b = true -> exists tp, In tp l /\ P tp) /\ ((exists tp, In tp l /\ Q tp) -> b = true).
  Proof.
    induction 1 as [|tp ci l cl [b [E [B1 B2]]] F IH]; cbn [oany].
    - exists false. split; auto. split; [discriminate|]. intros [? [[] _]].
    - rewrite E. cbn [obind]. destruct b.
      + exists true. split; auto. split; auto. intros _. exists tp. split; [left; auto|]. auto.
      + destruct IH as [b' [E' [B1' B2']]]. exists b'. split; auto. split.
        * intros X. destruct (B1' X) as [y [Y Z]]. exists y. split; [right; auto|auto].
        * intros [x [[<-|X] Y]]; [apply B2 in Y; discriminate|apply B2'; exists x; auto].
  Qed.
End Poly.

(** ** running minimum and maximum on doubles *)
Lemma max_F : forall a b : F64, fin a = true -> fin b = true -> fin (nmax a b) = true /\ B2R (nmax a b) = Rmax (B2R a) (B2R b).
Proof.
  intros a b A B. unfold nmax. rewrite (ltb_R a b A B). destruct (Rlt_le_dec (B2R a) (B2R b)) as [L|L].
  - rewrite (proj2 (Rltb_true _ _) L). split; auto. rewrite Rmax_right; lra.
  - rewrite (proj2 (Rltb_false _ _) L). split; auto. rewrite Rmax_left; lra.
Qed.
Lemma min_F : forall a b : F64, fin a = true -> fin b = true -> fin (nmin a b) = true /\ B2R (nmin a b) = Rmin (B2R a) (B2R b).
Proof.
  intros a b A B. unfold nmin. rewrite (ltb_R b a B A). destruct (Rlt_le_dec (B2R b) (B2R a)) as [L|L].
  - rewrite (proj2 (Rltb_true _ _) L). split; auto. rewrite Rmin_right; lra.
  - rewrite (proj2 (Rltb_false _ _) L). split; auto. rewrite Rmin_left; lra.
Qed.
Lemma pmax_F : forall (f : vec3 F64 -> F64) cs (a : F64), fin a = true -> (forall q, In q cs -> fin (f q) = true) ->
  fin (pmax f cs a) = true /\ B2R a <= B2R (pmax f cs a) /\ (forall q, In q cs -> B2R (f q) <= B2R (pmax f cs a)) /\
  (forall B, B2R a <= B -> (forall q, In q cs -> B2R (f q) <= B) -> B2R (pmax f cs a) <= B).
Proof.
  intros f. induction cs as [|q cs IH]; intros a A H.
  - change (pmax f [] a) with a. split; auto. split; [lra|]. split; [intros ? []|auto].
  - change (pmax f (q :: cs) a) with (pmax f cs (nmax a (f q))). destruct (max_F a (f q) A (H q (or_introl eq_refl))) as [MF ME].
    destruct (IH (nmax a (f q)) MF) as [X1 [X2 [X3 X4]]]; [intros; apply H; right; auto|]. rewrite ME in X2, X4.
    pose proof (Rmax_l (B2R a) (B2R (f q))). pose proof (Rmax_r (B2R a) (B2R (f q))). split; auto. split; [lra|]. split.
    + intros q' [<-|Q]; auto. lra.
    + intros B LA LB. apply X4; [apply Rmax_lub; auto; apply LB; left; auto|intros; apply LB; right; auto].
Qed.
Lemma pmin_F : forall (f : vec3 F64 -> F64) cs (a : F64), fin a = true -> (forall q, In q cs -> fin (f q) = true) ->
  fin (pmin f cs a) = true /\ B2R (pmin f cs a) <= B2R a /\ (forall q, In q cs -> B2R (pmin f cs a) <= B2R (f q)) /\
  (forall B, B <= B2R a -> (forall q, In q cs -> B <= B2R (f q)) -> B <= B2R (pmin f cs a)).
Proof.
  intros f. induction cs as [|q cs IH]; intros a A H.
  - change (pmin f [] a) with a. split; auto. split; [lra|]. split; [intros ? []|auto].
  - change (pmin f (q :: cs) a) with (pmin f cs (nmin a (f q))). destruct (min_F a (f q) A (H q (or_introl eq_refl))) as [MF ME].
    destruct (IH (nmin a (f q)) MF) as [X1 [X2 [X3 X4]]]; [intros; apply H; right; auto|]. rewrite ME in X2, X4.
    pose proof (Rmin_l (B2R a) (B2R (f q))). pose proof (Rmin_r (B2R a) (B2R (f q))). split; auto. split; [lra|]. split.
    + intros q' [<-|Q]; auto. lra.
    + intros B LA LB. apply X4; [apply Rmin_glb; auto; apply LB; left; auto|intros; apply LB; right; auto].
Qed.
Lemma boxc_F : forall (b : box F64) p, s_finv (b_min b) -> s_finv (b_max b) -> s_finv p ->
  (box_contains b p = true <-> s_in_box (rv (b_min b)) (rv (b_max b)) (rv p)).
Proof.
  intros b p [X1 [X2 X3]] [Y1 [Y2 Y3]] [P1 [P2 P3]]. unfold box_contains. rewrite !leb_R by assumption. unfold s_in_box, rv. cbn [vx vy vz]. rewrite !andb_true_iff, !Rleb_true. tauto.
Qed.
(** corner lists of boxes commute with reading doubles as reals *)
Lemma boxsoup_rv : forall mn mx : vec3 F64, s_corners (boxsoup (rv mn) (rv mx)) = map rv (s_corners (boxsoup mn mx)).
Proof. reflexivity. Qed.
Lemma corner_fin : forall mn mx q : vec3 F64, s_finv mn -> s_finv mx -> In q (s_corners (boxsoup mn mx)) -> s_finv q.
Proof.
  intros [a b c] [d e f] q [A [B C]] [D [E F]] I. cbn [vx vy vz] in *. unfold s_corners, boxsoup, corners8 in I. cbn [flat_map app vx vy vz] in I.
  assert (G : forall x y z : F64, s_fin x -> s_fin y -> s_fin z -> s_finv (V3 x y z)) by (intros; repeat split; auto).
  repeat (destruct I as [<-|I]; [apply G; assumption|]). destruct I.
Qed.
Lemma corner_in : forall mn mx q : vec3 R, s_ordered mn mx -> In q (s_corners (boxsoup mn mx)) -> s_in_box mn mx q.
Proof.
  intros [a b c] [d e f] q O I. unfold s_ordered in O. cbn [vx vy vz] in *. unfold s_corners, boxsoup, corners8 in I. cbn [flat_map app vx vy vz] in I.
  repeat (destruct I as [<-|I]; [unfold s_in_box; cbn [vx vy vz]; lra|]). destruct I.
Qed.

(** ** regions *)
Inductive all_rigid : ctree R -> Prop :=
| ar_box : forall mn mx, all_rigid (TBox mn mx)
| ar_comp : forall l, (forall t pose, In (t, pose) l -> all_rigid t /\ rigid pose) -> all_rigid (TComp l).
Lemma in_ball : forall e t p, s_in_by (- e) t p -> all_rigid t -> forall w, s_dist w p <= e -> s_in t w.
Proof.
  intros e t p H. induction H as [mn mx p H|l t pose q I H IH]; intros A w D.
  - constructor. apply dist_comp in D. destruct D as [D1 [D2 D3]]. unfold s_in_box in *. cbn [vx vy vz] in *. apply Rabs_le_inv in D1, D2, D3. lra.
  - inversion A as [|? AL]; subst. destruct (AL _ _ I) as [A1 A2]. rewrite <- (tapply_inverse pose w) by auto. econstructor; [exact I|]. apply IH; auto.
    rewrite <- (rigid_dist pose), tapply_inverse by auto. exact D.
Qed.
Lemma by_comp_iff : forall e l p, (forall t pose, In (t, pose) l -> rigid pose) ->
  (s_in_by e (TComp l) p <-> exists tp, In tp l /\ s_in_by e (fst tp) (tapply (tinverse (snd tp)) p)).
Proof.
  intros e l p RG. split.
  - intros H. inversion H as [|? t pose q I Q]; subst. exists (t, pose). split; auto. cbn [fst snd]. rewrite tinverse_apply; eauto.
  - intros [[t pose] [I Q]]. cbn [fst snd] in Q. rewrite <- (tapply_inverse pose p) by eauto. econstructor; eauto.
Qed.
(** the box around slightly displaced corners contains every point that lies deep enough in the hull of the exact corners *)
Lemma hull_deep : forall (cs cs' : list (vec3 R)) lo hi E e p (v : vec3 R), Forall2 (fun q q' => s_dist q q' <= E) cs cs' ->
  (forall q, In q cs -> s_in_box lo hi q) -> (forall w, s_dist w p <= e + E -> s_hull cs' w) -> 0 <= e -> 0 <= E -> s_dist v p <= e -> s_in_box lo hi v.
Proof.
  intros cs cs' lo hi E e p v F B H E0 E1 D.
  assert (B' : forall q', In q' cs' -> s_in_box (V3 (vx lo - E) (vy lo - E) (vz lo - E)) (V3 (vx hi + E) (vy hi + E) (vz hi + E)) q').
  { clear - F B. induction F as [|q q' cs cs' Q F IH]; intros x X; [destruct X|]. destruct X as [<-|X].
    - specialize (B q (or_introl eq_refl)). apply dist_comp in Q. destruct Q as [Q1 [Q2 Q3]]. apply Rabs_le_inv in Q1, Q2, Q3. unfold s_in_box in *. cbn [vx vy vz]. lra.
    - apply IH; auto. intros; apply B; right; auto. }
  assert (K : forall w, s_dist w p <= e + E -> s_in_box (V3 (vx lo - E) (vy lo - E) (vz lo - E)) (V3 (vx hi + E) (vy hi + E) (vz hi + E)) w).
  { intros w W. apply (hull_box cs'); auto. }
  assert (KX : forall a, Rabs a <= e + E -> s_dist (V3 (vx p + a) (vy p) (vz p)) p <= e + E).
  { intros a A. apply dist_le; [lra|]. unfold s_dist2. cbn [vx vy vz]. apply Rabs_le_inv in A. replace (_ + _) with (a * a) by ring. nra. }
  assert (KY : forall a, Rabs a <= e + E -> s_dist (V3 (vx p) (vy p + a) (vz p)) p <= e + E).
  { intros a A. apply dist_le; [lra|]. unfold s_dist2. cbn [vx vy vz]. apply Rabs_le_inv in A. replace (_ + _) with (a * a) by ring. nra. }
  assert (KZ : forall a, Rabs a <= e + E -> s_dist (V3 (vx p) (vy p) (vz p + a)) p <= e + E).
  { intros a A. apply dist_le; [lra|]. unfold s_dist2. cbn [vx vy vz]. apply Rabs_le_inv in A. replace (_ + _) with (a * a) by ring. nra. }
  assert (P1 : Rabs (e + E) <= e + E) by (rewrite Rabs_right; lra). assert (P2 : Rabs (- (e + E)) <= e + E) by (rewrite Rabs_Ropp; auto).
  pose proof (K _ (KX _ P1)) as X1. pose proof (K _ (KX _ P2)) as X2. pose proof (K _ (KY _ P1)) as Y1. pose proof (K _ (KY _ P2)) as Y2. pose proof (K _ (KZ _ P1)) as Z1. pose proof (K _ (KZ _ P2)) as Z2.
  apply dist_comp in D. destruct D as [D1 [D2 D3]]. apply Rabs_le_inv in D1, D2, D3. unfold s_in_box in *. cbn [vx vy vz] in *. lra.
Qed.
