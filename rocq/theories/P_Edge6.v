(** Containment when the segment passes exactly through edges and corners: inside points of convex meshes *)
From Coq Require Import ZArith NArith List Bool Lia Reals Lra Psatz Permutation.
From Verif Require Import Num MathTypes Outcome Mesh Box Spec P_Tac P_Math P_Mesh P_MeshGeo ShapeQuery SpecQuery SpecEdge P_Query P_Query2 P_Query3 P_Query5 P_Edge P_Edge2 P_Edge3 P_Edge4 P_Edge5.
Import ListNotations.
Local Open Scope R_scope.

(** moving the end of the segment so that it leaves through the triangle abc next to its corner a *)
Lemma aim : forall p q a b c tau r, 0 < r -> 0 < tau < 1 -> s_between p q tau = a -> s_height a b c p < 0 ->
  (forall q', near r q' q -> 0 < s_height a b c q') -> exists q1, near r q1 q /\ 0 < s_orient p q1 a b /\ 0 < s_orient p q1 b c /\ 0 < s_orient p q1 c a.
Proof.
  intros p q a b c tau r R0 T E HP HQ.
  set (wx := vx b - vx a + (vx c - vx a)). set (wy := vy b - vy a + (vy c - vy a)). set (wz := vz b - vz a + (vz c - vz a)).
  set (D := 1 + Rabs wx + Rabs wy + Rabs wz). pose proof (Rabs_pos wx). pose proof (Rabs_pos wy). pose proof (Rabs_pos wz). assert (DP : 1 <= D) by (unfold D; lra).
  set (m := Rmin r 1). assert (M : 0 < m /\ m <= r /\ m <= 1) by (unfold m; split; [apply Rmin_pos; lra|split; [apply Rmin_l|apply Rmin_r]]).
  set (s := m / 4 / D). assert (SP : 0 < s) by (unfold s; apply Rdiv_lt_0_compat; lra). assert (SD : s * D = m / 4) by (unfold s; field; lra). assert (S1 : s <= 1 / 4) by nra.
  set (q1 := V3 (vx q + s * wx) (vy q + s * wy) (vz q + s * wz)).
  assert (NQ : near r q1 q).
  { unfold near, q1. cbn [vx vy vz]. assert (B : forall x w, Rabs w < D -> Rabs (x + s * w - x) < r).
    { intros x w L. replace (x + s * w - x) with (s * w) by ring. rewrite Rabs_mult, (Rabs_right s) by lra. nra. }
    repeat split; apply B; unfold D; lra. }
  exists q1. split; auto. specialize (HQ q1 NQ). set (e := tau * s). assert (EP : 0 < e /\ e < 1 / 2) by (unfold e; split; nra).
  destruct (bary p q1 a b c (1 - 2 * e) e e tau) as [B1 [B2 [B3 _]]]; [ring| |].
  { clear - E. assert (EX : vx (s_between p q tau) = vx a) by (rewrite E; auto). assert (EY : vy (s_between p q tau) = vy a) by (rewrite E; auto). assert (EZ : vz (s_between p q tau) = vz a) by (rewrite E; auto).
    unfold s_between in *. cbn [vx vy vz] in *. unfold q1, e, wx, wy, wz. cbn [vx vy vz]. f_equal; [rewrite <- EX|rewrite <- EY|rewrite <- EZ]; ring. }
  set (DD := s_height a b c q1 - s_height a b c p) in *. assert (0 < DD) by (unfold DD; lra). rewrite B1, B2, B3. repeat split; nra.
Qed.
Lemma near_sub : forall r s x y z, near r x y -> near s y z -> near (r + s) x z.
Proof. exact near_trans. Qed.
(** a regular point near q that keeps all signs and aims at the corner triangle *)
Lemma aim_regular : forall p q l a b c tau, 0 < tau < 1 -> s_between p q tau = a -> In (a, b, c) l -> s_height a b c p < 0 -> 0 < s_height a b c q ->
  (forall t, In t l -> hgt t p <> 0 /\ hgt t q <> 0) -> forall r, 0 < r ->
  exists q', near r q' q /\ (forall t, In t l -> kept p q q' t /\ nz1 p q' t) /\ 0 < s_orient p q' a b /\ 0 < s_orient p q' b c /\ 0 < s_orient p q' c a.
Proof.
  intros p q l a b c tau T E I HP HQ NZ r R0. destruct (kept_near p q l) as [r1 [R1 K1]]. set (m := Rmin r r1 / 2).
  assert (M : 0 < m) by (unfold m; assert (0 < Rmin r r1) by (apply Rmin_pos; auto); lra).
  assert (ML : m + m <= r /\ m + m <= r1) by (unfold m; split; [pose proof (Rmin_l r r1)|pose proof (Rmin_r r r1)]; lra).
  destruct (aim p q a b c tau m M T E HP) as [q1 [N1 [A1 [A2 A3]]]].
  { intros q' N. destruct (K1 q' (a, b, c)) as [_ [_ [_ K]]]; auto; [eapply near_weaken; [|eauto]; lra|]. specialize (K ltac:(lra)). nra. }
  destruct (keep [(fun e => s_orient p e a b); (fun e => s_orient p e b c); (fun e => s_orient p e c a)] q1) as [r2 [R2 K2]].
  { intros f [<-|[<-|[<-|[]]]]; (split; [apply aff_orient_l|assumption]). }
  destruct (regular_near p q l q1 (Rmin r2 m)) as [q' [N' RG]]; [apply Rmin_pos; auto|auto|].
  assert (NM : near m q' q1) by (eapply near_weaken; [apply Rmin_r|eauto]). assert (N2 : near r2 q' q1) by (eapply near_weaken; [apply Rmin_l|eauto]).
  assert (NQ : near (m + m) q' q) by (eapply near_trans; eauto).
  exists q'. split; [eapply near_weaken; [|eauto]; lra|]. split.
  - intros t J. split; auto. apply K1; auto. eapply near_weaken; [|eauto]. lra.
  - repeat split; [apply (K2 (fun e => s_orient p e a b))|apply (K2 (fun e => s_orient p e b c))|apply (K2 (fun e => s_orient p e c a))]; auto; cbn; auto.
Qed.
Lemma foldm_ones : forall ds, (forall d, In d ds -> d = 1%Z) -> foldm 1 ds = 1%Z.
Proof. induction ds as [|d ds IH]; intros H; [reflexivity|]. rewrite (H d (or_introl eq_refl)). unfold foldm. cbn [fold_left Z.eqb Pos.eqb]. apply IH. intros; apply H; right; auto. Qed.
Lemma foldm_one : forall ds, (forall d, In d ds -> d = 1%Z) -> ds <> [] -> foldm 0 ds = 1%Z.
Proof. intros [|d ds] H N; [congruence|]. rewrite (H d (or_introl eq_refl)). apply (foldm_ones ds). intros; apply H; right; auto. Qed.
Lemma zsum_nonneg : forall A (f : A -> Z) l, (forall x, In x l -> (0 <= f x)%Z) -> (0 <= s_zsum (map f l))%Z.
Proof. intros A f. induction l as [|x l IH]; intros H; [reflexivity|]. cbn [map s_zsum fold_right]. fold (s_zsum (map f l)). specialize (IH (fun y I => H y (or_intror I))). specialize (H x (or_introl eq_refl)). lia. Qed.
Lemma zsum_mem : forall A (f : A -> Z) l x, (forall x, In x l -> (0 <= f x)%Z) -> In x l -> (f x <= s_zsum (map f l))%Z.
Proof.
  intros A f l x. induction l as [|y l IH]; intros H I; [destruct I|]. cbn [map s_zsum fold_right]. fold (s_zsum (map f l)). pose proof (H y (or_introl eq_refl)). destruct I as [-> | I].
  - pose proof (zsum_nonneg A f l (fun y I => H y (or_intror I))). lia.
  - specialize (IH (fun y I => H y (or_intror I)) I). lia.
Qed.
Lemma nth_inj : forall (pts : list (vec3 R)) i j v, NoDup pts -> s_nth pts (N.to_nat i) = Some v -> s_nth pts (N.to_nat j) = Some v -> i = j.
Proof.
  intros pts i j v ND A B. rewrite s_nth_nth_error in A, B. apply N2Nat.inj. apply (proj1 (NoDup_nth_error pts) ND); [|congruence]. apply nth_error_Some. congruence.
Qed.
(** all directions are outward seen from inside *)
Lemma inside_dirs : forall (pts : list (vec3 R)) p q ixs l, s_soup pts ixs = Some l -> (forall t, In t l -> hgt t p < 0) -> forall a, In a (acts_of p q ixs l) ->
  match a with ANone => True | AGen d => d = 1%Z | AEdge _ _ d => d = 1%Z | AVert _ d => d = 1%Z end.
Proof.
  intros pts p q ixs l S IN a I. destruct (act_in _ _ _ _ _ _ S I) as [i1 [i2 [i3 [v1 [v2 [v3 [I1 [I2 [N1 [N2 [N3 ->]]]]]]]]]]].
  specialize (IN _ I2). unfold hgt in IN. unfold act_of. destruct (Rlt_dec _ 0) as [L|]; auto.
  pose proof (orient_sum p q v1 v2 v3) as SUM. assert (HQ : 0 < s_height v1 v2 v3 q) by nra.
  destruct (dir3_cases (s_orient p q v1 v2) (s_orient p q v2 v3) (s_orient p q v3 v1)) as [[D _]|[[D X]|[D _]]]; rewrite D; cbn [Z.eqb]; auto; [|lra].
  destruct (is0 _), (is0 _), (is0 _); auto.
Qed.
(** the count when a corner is hit *)
Lemma vert_count : forall (pts : list (vec3 R)) p q ts l B i0 d0, p <> q -> s_soup pts (map idx ts) = Some l -> s_closed_surface (map idx ts) -> (forall ix, In ix (map idx ts) -> small_ix ix) ->
  (forall t, In t l -> s_tame p q t) -> NoDup pts -> s_convex_mesh pts l -> s_strictly_inside l p -> s_flat_disjoint l ->
  s_convex B -> (forall v, In v pts -> B v) -> (exists r, 0 < r /\ forall q', near r q' q -> ~ B q') ->
  In (AVert i0 d0) (acts_of p q (map idx ts) l) -> contains_loop pts p q ts h0 = Ret true.
Proof.
  intros pts p q ts l B i0 d0 PQ S CL SM TA ND CV SI FD CB KB [r [R0 NB]] I0. set (ixs := map idx ts) in *. rewrite (loop_tame pts p q PQ ts l h0 S TA). fold ixs. f_equal. apply Z.eqb_eq.
  assert (HP : forall t, In t l -> hgt t p < 0) by (intros [[a b] c] I; apply SI; auto).
  pose proof (inside_dirs pts p q ixs l S HP) as DIRS.
  assert (INP : forall n v, s_nth pts n = Some v -> In v pts) by (intros n v E'; rewrite s_nth_nth_error in E'; eapply nth_error_In; eauto).
  (* every corner action comes from a point on the segment *)
  assert (VF : forall i d, In (AVert i d) (acts_of p q ixs l) -> exists t a b c tau, In t l /\ s_nth pts (N.to_nat i) = Some a /\ hgt t a = 0 /\ hgt t q > 0 /\ 0 < tau < 1 /\ s_between p q tau = a /\
    (t = (a, b, c) \/ t = (c, a, b) \/ t = (b, c, a)) /\ (exists ix, In (ix, t) (combine ixs l) /\ act_of p q ix t = AVert i d)).
  { intros i d I. unfold acts_of in I. apply in_map_iff in I. destruct I as [[ix t] [EA I]]. cbn [fst snd] in EA.
    destruct (act_in p q pts ixs l (AVert i d) S) as [i1 [i2 [i3 [v1 [v2 [v3 [I1 [I2 [N1 [N2 [N3 EA']]]]]]]]]]]; [unfold acts_of; apply in_map_iff; exists (ix, t); auto|].
    assert (XX : exists i1 i2 i3 v1 v2 v3, ix = (i1, i2, i3) /\ t = (v1, v2, v3) /\ s_nth pts (N.to_nat i1) = Some v1 /\ s_nth pts (N.to_nat i2) = Some v2 /\ s_nth pts (N.to_nat i3) = Some v3).
    { clear - S I. revert l S I. induction ixs as [|[[x y] z] xs IH]; intros l S I; [destruct I|]. destruct (soup_cons _ _ _ _ _ _ S) as [a [b [c [r [N1 [N2 [N3 [S' ->]]]]]]]].
      destruct I as [I|I]; [injection I as <- <-; exists x, y, z, a, b, c; auto 10|]. apply (IH r S' I). }
    clear i1 i2 i3 v1 v2 v3 I1 I2 N1 N2 N3 EA'. destruct XX as [i1 [i2 [i3 [v1 [v2 [v3 [-> [-> [N1 [N2 N3]]]]]]]]]].
    assert (IL : In (v1, v2, v3) l) by (eapply in_combine_r; eauto).
    destruct (act_vert_inv _ _ _ _ _ _ EA) as [j [k [a [b [c [RT [S1 [S3 [H _]]]]]]]]]. destruct (vert_on p q a b c S1 S3 H) as [tau [T E]].
    assert (HH : s_height a b c a = 0) by (unq; ring).
    assert (Y : s_nth pts (N.to_nat i) = Some a /\ ((v1, v2, v3) = (a, b, c) \/ (v1, v2, v3) = (c, a, b) \/ (v1, v2, v3) = (b, c, a)) /\ (forall x, s_height v1 v2 v3 x = s_height a b c x)).
    { destruct RT as [RT|[RT|RT]]; cbn [rot] in RT; injection RT as -> -> -> -> -> ->.
      - auto.
      - repeat split; auto. intros x. rewrite height_rot. reflexivity.
      - repeat split; auto. intros x. rewrite (height_rot v3 v1 v2). reflexivity. }
    destruct Y as [Y1 [Y2 Y3]]. specialize (HP _ IL). unfold hgt in HP.
    exists (v1, v2, v3), a, b, c, tau. split; auto. split; auto. split; [unfold hgt; rewrite Y3; auto|]. split; [unfold hgt; rewrite Y3 in *; nra|]. repeat split; auto; try lra. exists (i1, i2, i3). auto. }
  destruct (VF _ _ I0) as [t0 [a [b [c [tau [T0 [NA [HA [HQ [TT [EA [RO [ix0 [IC0 AV0]]]]]]]]]]]]]].
  (* aim at t0 *)
  assert (HGT0 : forall x, s_height a b c x = hgt t0 x) by (intros x; destruct RO as [-> | [-> | ->]]; unfold hgt; [auto|apply eq_sym, height_rot|apply height_rot]).
  assert (NZ : forall t, In t l -> hgt t p <> 0 /\ hgt t q <> 0) by (intros; apply tame_facts; auto).
  assert (AIM : exists q', near r q' q /\ (forall t, In t l -> kept p q q' t /\ nz1 p q' t) /\ 0 < s_orient p q' a b /\ 0 < s_orient p q' b c /\ 0 < s_orient p q' c a).
  { destruct (aim_regular p q ((a, b, c) :: l) a b c tau TT EA (or_introl eq_refl)) with (r := r) as [q' [Q1 [Q2 Q3]]]; auto.
    - rewrite HGT0. auto.
    - rewrite HGT0. lra.
    - intros t [<-|J]; [|auto]. unfold hgt. rewrite !HGT0. apply NZ. auto.
    - exists q'. split; auto. split; auto. intros t J. apply Q2. right. auto. }
  destruct AIM as [q' [NQ [KZ [O1 [O2 O3]]]]].
  (* the moved segment leaves exactly once *)
  assert (TOT : s_zsum (map (segt p q') l) = 1%Z).
  { assert (GE := inside_ge1 B p q' pts ixs l S CL CB KB (NB _ NQ) CV SI). assert (LE := inside_le1 p q' l).
    assert (NE : l <> []) by (intros E; rewrite E in T0; destruct T0). specialize (GE NE (fun t J => proj2 (KZ t J))).
    assert (s_zsum (map (segt p q') l) <= 1)%Z; [|lia]. apply LE; auto. { intros t J. split; [apply KZ; auto|auto]. }
    intros [[x y] z] [[x' y'] z'] v J J' V. apply (CV x y z); auto. destruct (soup_in _ _ _ _ _ _ S J') as [X1 [X2 X3]]. cbn [corners In] in V. destruct V as [<-|[<-|[<-|[]]]]; auto. }
  assert (POS : forall t, In t l -> (0 <= segt p q' t)%Z) by (intros t J; apply segt_meets; [apply KZ; auto|auto]).
  assert (S0 : segt p q' t0 = 1%Z).
  { assert (X : segt p q' t0 = seg p q' a b c) by (destruct RO as [-> | [-> | ->]]; unfold segt; [auto|rewrite <- (seg_rot p q' c a b); auto|rewrite seg_rot; auto]).
    assert (HQ' : 0 < hgt t0 q').
    { destruct (KZ t0 T0) as [KE _]. clear - KE HQ. destruct t0 as [[x y] z]. destruct KE as [_ [_ [_ KE]]]. unfold hgt in *. specialize (KE ltac:(lra)). nra. }
    rewrite X. unfold seg. rewrite sgn3_p by auto. rewrite !HGT0. specialize (HP _ T0). rewrite segb_hit by lra. destruct Rlt_dec; auto. exfalso. nra. }
  (* so nothing else is hit *)
  destruct (nodup_N (vert_keys (acts_of p q ixs l))) as [W [NW IW]].
  destruct (count_edges pts p q ixs l W S CL SM (fun t J => proj1 (NZ t J)) NW IW) as [CE SG].
  assert (MT := moved_total pts p q q' PQ ixs l S (fun t J => conj (proj1 (NZ t J)) (conj (proj2 (NZ t J)) (KZ t J)))).
  rewrite (SG q') in MT by (intros [[x y] z] J; apply (KZ _ J)). rewrite TOT in MT.
  assert (VP : (1 <= s_zsum (map (vpart p q q') (combine ixs l)))%Z).
  { replace 1%Z with (vpart p q q' (ix0, t0)) by (unfold vpart; cbn [fst snd]; rewrite AV0; auto). apply (zsum_mem _ (vpart p q q') (combine ixs l) (ix0, t0)); auto.
    intros [ix t] J. unfold vpart. cbn [fst snd]. destruct (act_of p q ix t); try lia. apply POS. eapply in_combine_r; eauto. }
  assert (G0 : (0 <= gens (acts_of p q ixs l))%Z).
  { unfold gens. apply zsum_nonneg. intros x J. specialize (DIRS x J). destruct x; lia. }
  assert (E0 : (0 <= s_zsum (map edir (acts_of p q ixs l)))%Z).
  { apply zsum_nonneg. intros x J. specialize (DIRS x J). destruct x; cbn [edir]; lia. }
  (* and the corner counts once *)
  assert (WV : s_zsum (map (fun v => foldm 0 (vert_acts v (acts_of p q ixs l))) W) = 1%Z); [|lia].
  assert (ALL : forall v d, In d (vert_acts v (acts_of p q ixs l)) -> d = 1%Z /\ In (AVert v d) (acts_of p q ixs l)).
  { intros v d J. unfold vert_acts in J. apply in_flat_map in J. destruct J as [[|x|x y z|x z] [J1 J2]]; try (destruct J2; fail). destruct (N.eqb_spec x v) as [->|]; [|destruct J2]. destruct J2 as [<-|[]]. split; auto. apply (DIRS _ J1). }
  assert (ME : In d0 (vert_acts i0 (acts_of p q ixs l))).
  { unfold vert_acts. apply in_flat_map. exists (AVert i0 d0). split; auto. rewrite N.eqb_refl. left. auto. }
  rewrite (zsum_single _ _ W i0 NW).
  - apply foldm_one; [intros d J; apply ALL in J; tauto|]. intros E. rewrite E in ME. destruct ME.
  - apply IW. unfold vert_keys. apply in_flat_map. exists (AVert i0 d0). split; auto. left. auto.
  - intros v _ NE. destruct (vert_acts v (acts_of p q ixs l)) as [|d ds] eqn:E; [reflexivity|]. exfalso. apply NE.
    destruct (ALL v d) as [_ IV]; [rewrite E; left; auto|].
    destruct (VF _ _ IV) as [t1 [a1 [b1 [c1 [tau1 [T1 [NA1 [HA1 [HQ1 [TT1 [EA1 _]]]]]]]]]]].
    assert (LE1 : forall t v, In t l -> In v pts -> hgt t v <= 0) by (intros [[x y] z] w J J'; apply (CV x y z); auto).
    pose proof (LE1 t0 a1 T0 (INP _ _ NA1)) as L1. pose proof (LE1 t1 a T1 (INP _ _ NA)) as L2.
    rewrite <- EA1, height_between in L1. rewrite <- EA, height_between in L2. rewrite <- EA, height_between in HA. rewrite <- EA1, height_between in HA1.
    pose proof (HP _ T0) as P0. pose proof (HP _ T1) as P1. assert (tau = tau1) by (apply Rle_antisym; nra). subst tau1.
    apply (nth_inj pts v i0 a ND); auto. congruence.
Qed.
