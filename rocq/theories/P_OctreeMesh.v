(** Octree mesh cache, for every scalar type. *)
From Coq Require Import ZArith NArith List Bool Lia.
From Verif Require Import Num MathTypes Outcome Mesh Box Octree P_Mesh P_MeshFilter.
Import ListNotations.

Section G.
  Context {T : Type} {NT : Num T}.
  Definition meq (a b : mesh T) : Prop := m_points a = m_points b /\ m_tris a = m_tris b.
  Definition omeq (a b : outcome (mesh T)) : Prop :=
    match a, b with Ret x, Ret y => meq x y | UB, UB => True | Exn, Exn => True | Fuel, Fuel => True | _, _ => False end.

  Lemma add_meq : forall a b o, meq a b -> meq (mesh_add a o) (mesh_add b o).
  Proof. intros a b o [P Q]. unfold mesh_add, meq. cbn. rewrite P, Q. auto. Qed.
  Lemma fold_meq : forall l a b, meq a b -> meq (fold_left (fun m (x : box T) => mesh_add m (b_mesh x)) l a) (fold_left (fun m x => mesh_add m (b_mesh x)) l b).
  Proof. induction l as [|x l IH]; intros a b H; cbn; auto. apply IH, add_meq, H. Qed.
  Lemma fp_meq : forall olds a b xyz im, meq a b ->
    match filter_points olds a xyz im, filter_points olds b xyz im with
    | Ret (x, i), Ret (y, j) => meq x y /\ i = j
    | UB, UB => True | Exn, Exn => True | Fuel, Fuel => True | _, _ => False
    end.
  Proof.
    induction olds as [|v r IH]; intros a b xyz im H; cbn [filter_points]; auto.
    destruct (vert_key v) as [k|]; cbn; auto. destruct (xmap_find k xyz); [apply IH, H|].
    destruct H as [H1 H2]. rewrite H1. apply IH. unfold meq. cbn. rewrite ?H1, ?H2. auto.
  Qed.
  Lemma filter_meq : forall a b, meq a b -> omeq (filterOverlapping a) (filterOverlapping b).
  Proof.
    intros a b [H1 H2]. unfold filterOverlapping. rewrite <- H1, <- H2.
    pose proof (fp_meq (m_points a) (MkMesh [] (m_tris a) (m_r a) (m_r2 a) (m_tc a)) (MkMesh [] (m_tris a) (m_r b) (m_r2 b) (m_tc b)) [] []) as F.
    assert (E : meq (MkMesh [] (m_tris a) (m_r a) (m_r2 a) (m_tc a)) (MkMesh [] (m_tris a) (m_r b) (m_r2 b) (m_tc b))) by (split; auto).
    specialize (F E). clear E. destruct (filter_points _ _ [] []) as [[x i]| | |], (filter_points _ _ [] []) as [[y j]| | |]; try contradiction; cbn; auto.
    destruct F as [[F1 F2] ->]. rewrite F1, F2. destruct (remap_tris j (m_tris y) []); cbn; auto. split; auto.
  Qed.
  Lemma filter_tris : forall a a', filterOverlapping a = Ret a' -> length (m_tris a') = length (m_tris a).
  Proof.
    intros a a' H. unfold filterOverlapping in H. destruct (filter_points _ _ [] []) as [[x i]| | |] eqn:E; try discriminate. cbn [obind] in H.
    destruct (remap_tris i (m_tris x) []) as [ts| | |] eqn:R; try discriminate. injection H as <-. cbn [m_tris].
    apply remap_length in R. apply filter_points_frame in E. destruct E as [E _]. cbn in *. congruence.
  Qed.

  Lemma filter_cases : forall a : mesh T, filterOverlapping a <> Exn /\ filterOverlapping a <> Fuel.
  Proof.
    intros a. unfold filterOverlapping.
    assert (K : forall im ts acc, remap_tris im ts acc <> Exn /\ remap_tris im ts acc <> Fuel).
    { induction ts as [|u us IH]; intros acc; cbn [remap_tris]; [split; discriminate|]. destruct (nth_error im _); cbn; [|split; discriminate].
      destruct (nth_error im _); cbn; [|split; discriminate]. destruct (nth_error im _); cbn; [|split; discriminate]. apply IH. }
    assert (P : forall l m xyz im, filter_points l m xyz im <> Exn /\ @filter_points T NT l m xyz im <> Fuel).
    { induction l as [|v r IH]; intros m xyz im; cbn [filter_points]; [split; discriminate|]. destruct (vert_key v); cbn; [|split; discriminate].
      destruct (xmap_find _ xyz); apply IH. }
    match goal with |- context [filter_points ?l ?m ?x ?i] => destruct (P l m x i) as [P1 P2]; destruct (filter_points l m x i) as [[y j]| | |] end; cbn [obind];
      try congruence; try (split; discriminate).
    destruct (K j (m_tris y) []) as [K1 K2]. destruct (remap_tris j (m_tris y) []); cbn [obind]; try congruence; split; discriminate.
  Qed.

  (** the mesh of the current cubes, built from nothing *)
  Definition rebuild (o : octree T) : outcome (mesh T) := filterOverlapping (fold_left (fun m x => mesh_add m (b_mesh x)) (oct_cubes o []) mesh_new).
  Definition mesh_ok (o : octree T) : Prop :=
    (m_points (o_mesh o) = [] /\ m_tris (o_mesh o) = []) \/ (m_tris (o_mesh o) <> [] /\ omeq (Ret (o_mesh o)) (rebuild o)).
  Lemma cubes_copy : forall (n : node T) off, node_cubes (node_copy n) off = node_cubes n off.
  Proof.
    induction n as [|s sp o ch IH]; intros off; auto. cbn [node_copy node_cubes]. destruct o; auto.
    apply flat_map_ext. intros [[x y] z]. apply IH.
  Qed.
  Lemma omeq_trans : forall a b c, omeq a b -> omeq b c -> omeq a c.
  Proof. intros [a| | |] [b| | |] [c| | |]; cbn; try tauto. unfold meq. intuition congruence. Qed.
  Lemma omeq_sym : forall a b, omeq a b -> omeq b a.
  Proof. intros [a| | |] [b| | |]; cbn; try tauto. unfold meq. intuition. Qed.

  Lemma oct_mesh_ok : forall o, mesh_ok o ->
    match oct_mesh o with
    | Ret (m, o') => omeq (Ret m) (rebuild o) /\ mesh_ok o' /\ o_mesh o' = m /\ o_root o' = o_root o /\ o_base o' = o_base o
    | UB => rebuild o = UB
    | _ => False
    end.
  Proof.
    intros o OK. unfold oct_mesh, mesh_empty. destruct (m_tris (o_mesh o)) as [|t ts] eqn:ET.
    - assert (P0 : m_points (o_mesh o) = []) by (destruct OK as [[P _]|[N _]]; [auto|congruence]).
      assert (ME : meq (fold_left (fun m x => mesh_add m (b_mesh x)) (oct_cubes o []) (o_mesh o)) (fold_left (fun m x => mesh_add m (b_mesh x)) (oct_cubes o []) mesh_new)).
      { apply fold_meq. split; cbn; auto. }
      pose proof (filter_meq _ _ ME) as F. fold (rebuild o) in F.
      destruct (filterOverlapping _) as [m'| | |] eqn:EF; cbn [obind].
      + split; auto. split; [|auto]. unfold mesh_ok. cbn [o_mesh]. destruct (m_tris m') as [|t ts] eqn:ET'; [left|right; split; [congruence|exact F]].
        split; auto. (* no triangles: no cubes *)
        apply filter_tris in EF as L. rewrite ET' in L. cbn [length] in L. symmetry in L. apply length_zero_iff_nil in L.
        assert (C0 : oct_cubes o [] = []).
        { destruct (oct_cubes o []) as [|c cs] eqn:EC; auto. exfalso. cbn [fold_left] in L.
          assert (K : forall l (m : mesh T), m_tris m <> [] -> m_tris (fold_left (fun m (x : box T) => mesh_add m (b_mesh x)) l m) <> []).
          { induction l as [|x l IH]; intros m N; cbn; auto. apply IH. cbn. destruct (m_tris m); [congruence|discriminate]. }
          apply (K cs (mesh_add (o_mesh o) (b_mesh c))); [|exact L].
          assert (CM : exists mn mx, c = box_make mn mx).
          { assert (IN : In c (oct_cubes o [])) by (rewrite EC; left; auto). unfold oct_cubes in IN. cbn [app] in IN. revert IN.
            generalize (o_off o). induction (o_root o) as [|s sp oc ch IH]; intros off IN; [contradiction|]. cbn [node_cubes] in IN. destruct oc.
            - destruct IN as [<-|[]]. eauto.
            - apply in_flat_map in IN. destruct IN as [[[x y] z] [_ IN]]. eapply IH; eauto. }
          destruct CM as [mn [mx ->]]. cbn [mesh_add invalidate m_tris]. rewrite ET. cbn [app]. intros N. apply map_eq_nil in N. discriminate N. }
        rewrite C0 in EF. cbn [fold_left] in EF. unfold filterOverlapping in EF. rewrite P0, ET in EF. cbn in EF. injection EF as <-. reflexivity.
      + exfalso. apply (proj1 (filter_cases _) EF).
      + destruct (rebuild o); auto; contradiction.
      + exfalso. apply (proj2 (filter_cases _) EF).
    - split; [|auto]. destruct OK as [[_ N]|[_ OK]]; [congruence|exact OK].
  Qed.
  (** every history keeps the cache coherent *)
  Lemma clear_ok : forall o : octree T, m_points (o_mesh o) = [] -> m_tris (o_mesh o) = [] -> mesh_ok o.
  Proof. left. auto. Qed.
  Lemma new_ok : forall f S req o, oct_new f S req = Ret o -> @mesh_ok o.
  Proof.
    intros f S req o H. unfold oct_new, oct_setRes in H. destruct (halve _ _ _); try discriminate. injection H as <-. left. auto.
  Qed.
  Lemma mesh_ok_ext : forall o o' : octree T, mesh_ok o -> o_mesh o' = o_mesh o -> o_root o' = o_root o -> o_off o' = o_off o -> mesh_ok o'.
  Proof. intros o o' H A B C. unfold mesh_ok, rebuild, oct_cubes in *. rewrite A, B, C. exact H. Qed.
  Lemma mesh_step_ok : forall f o op o', mesh_ok o -> oct_step f o op = Ret o' -> mesh_ok o'.
  Proof.
    intros f o op o' OK H. destruct op; cbn [oct_step] in H.
    - unfold oct_add in H. destruct (node_add _ _ _ _); try discriminate. injection H as <-. left. auto.
    - injection H as <-. left. auto.
    - unfold oct_setRes in H. destruct (halve _ _ _); try discriminate. injection H as <-. eapply mesh_ok_ext; eauto.
    - unfold oct_raytrace in H. destruct (box_ray _ _ _ _ _) as [h x]. destruct h; cbn [negb] in H.
      + destruct (node_raytrace _ _ _ _ _ _ _); try discriminate. cbn [obind] in H. destruct (oct_add _ _ _); try discriminate. injection H as <-. left. auto.
      + injection H as <-. auto.
    - pose proof (oct_mesh_ok _ OK) as M. destruct (oct_mesh o) as [[m x]| | |]; try discriminate. injection H as <-. tauto.
    - unfold oct_bbox in H. destruct (s_bbv (o_base o)).
      + destruct (shape_bbox _ _). injection H as <-. eapply mesh_ok_ext; eauto.
      + pose proof (oct_mesh_ok _ OK) as M. destruct (oct_mesh o) as [[m x]| | |]; try discriminate. cbn [obind] in H.
        destruct (shape_bbox _ _). injection H as <-. eapply mesh_ok_ext; [apply M| | |]; reflexivity.
    - injection H as <-. eapply mesh_ok_ext; eauto.
    - injection H as <-. left. auto.
  Qed.
  Lemma mesh_run_ok : forall f ops o o', mesh_ok o -> oct_run f o ops = Ret o' -> mesh_ok o'.
  Proof.
    induction ops as [|op r IH]; intros o o' OK H; cbn [oct_run] in H.
    - injection H as <-. auto.
    - destruct (oct_step f o op) as [x| | |] eqn:E; try discriminate. cbn [obind] in H. eapply IH; [|exact H]. eapply mesh_step_ok; eauto.
  Qed.

  (** a mesh query and a mesh query on a fresh copy agree *)
  Lemma mesh_copy : forall o, mesh_ok o ->
    match oct_mesh o, oct_mesh (oct_copy o) with
    | Ret (m, _), Ret (m', _) => meq m m'
    | UB, UB => True
    | _, _ => False
    end.
  Proof.
    intros o OK. pose proof (oct_mesh_ok _ OK) as A. pose proof (oct_mesh_ok (oct_copy o) (or_introl (conj eq_refl eq_refl))) as B.
    assert (R : rebuild (oct_copy o) = rebuild o). { unfold rebuild, oct_cubes, oct_copy. cbn [o_root o_off]. rewrite cubes_copy. reflexivity. }
    rewrite R in B. destruct (oct_mesh o) as [[m x]| | |], (oct_mesh (oct_copy o)) as [[m' x']| | |]; try contradiction; auto.
    - destruct A as [A _], B as [B _]. apply (omeq_trans (Ret m) (rebuild o) (Ret m')); [exact A|apply omeq_sym, B].
    - destruct A as [A _]. rewrite B in A. contradiction.
    - destruct B as [B _]. rewrite A in B. contradiction.
  Qed.
End G.
From Coq Require Import FunctionalExtensionality.
Section Copy.
  Context {T : Type} {NT : Num T}.
  Lemma node_copy_id : forall n : node T, node_copy n = n.
  Proof.
    induction n as [|s sp o ch IH]; auto. cbn [node_copy]. f_equal.
    apply functional_extensionality. intros x. apply functional_extensionality. intros y. apply functional_extensionality. intros z. apply IH.
  Qed.
  (** octrees that differ at most in the state of the mesh cache *)
  Record same (o o' : octree T) : Prop := {
    sm_base : o_base o' = o_base o; sm_res : o_res o' = o_res o; sm_off : o_off o' = o_off o; sm_max : o_max o' = o_max o;
    sm_size : o_size o' = o_size o; sm_root : o_root o' = o_root o; sm_ok : mesh_ok o; sm_ok' : mesh_ok o' }.
  Definition osame (a b : outcome (octree T)) : Prop :=
    match a, b with Ret x, Ret y => same x y | UB, UB => True | Exn, Exn => True | Fuel, Fuel => True | _, _ => False end.
  Lemma same_rebuild : forall o o', same o o' -> rebuild o' = rebuild o.
  Proof. intros o o' [? ? A ? ? B ? ?]. unfold rebuild, oct_cubes. rewrite A, B. reflexivity. Qed.
  Lemma same_mesh : forall o o', same o o' ->
    match oct_mesh o, oct_mesh o' with
    | Ret (m, x), Ret (m', x') => meq m m' /\ same x x'
    | UB, UB => True
    | _, _ => False
    end.
  Proof.
    intros o o' H. pose proof (same_rebuild _ _ H) as R. destruct H as [H1 H2 H3 H4 H5 H6 K K'].
    pose proof (oct_mesh_ok _ K) as A. pose proof (oct_mesh_ok _ K') as B. rewrite R in B.
    assert (F : forall (o x : octree T) m, oct_mesh o = Ret (m, x) -> o_res x = o_res o /\ o_off x = o_off o /\ o_max x = o_max o /\ o_size x = o_size o).
    { intros o1 x m E. unfold oct_mesh in E. destruct (mesh_empty _).
      - destruct (filterOverlapping _); try discriminate. injection E as <- <-. auto.
      - injection E as <- <-. auto. }
    pose proof (F o) as Fo. pose proof (F o') as Fo'.
    destruct (oct_mesh o) as [[m x]| | |], (oct_mesh o') as [[m' x']| | |]; try contradiction; auto.
    - destruct A as [A1 [A2 [A3 [A4 A5]]]], B as [B1 [B2 [B3 [B4 B5]]]]. destruct (Fo _ _ eq_refl) as [C1 [C2 [C3 C4]]], (Fo' _ _ eq_refl) as [D1 [D2 [D3 D4]]]. split.
      + apply (omeq_trans (Ret m) (rebuild o) (Ret m')); [exact A1|apply omeq_sym, B1].
      + constructor; auto; congruence.
    - destruct A as [A _]. rewrite B in A. contradiction.
    - destruct B as [B _]. rewrite A in B. contradiction.
  Qed.
  Lemma same_copy : forall o, mesh_ok o -> same o (oct_copy o).
  Proof. intros o H. constructor; auto; try reflexivity; [apply node_copy_id|left; auto]. Qed.
  Lemma same_step : forall f o o' op, same o o' -> osame (oct_step f o op) (oct_step f o' op).
  Proof.
    intros f o o' op H. pose proof (mesh_step_ok f o op) as K. pose proof (mesh_step_ok f o' op) as K'. pose proof (same_mesh _ _ H) as SM.
    destruct H as [H1 H2 H3 H4 H5 H6 M M']. specialize (fun x => K x M). specialize (fun x => K' x M'). destruct op; cbn [oct_step] in *.
    - unfold oct_add in *. rewrite H2, H3, H6 in *. destruct (node_add _ _ _ _); cbn [obind osame] in *; auto.
      constructor; cbn; auto; left; auto.
    - cbn. constructor; cbn; auto; try (rewrite H5; auto); left; auto.
    - unfold oct_setRes in *. rewrite H5 in *. destruct (halve _ _ _); cbn [obind osame] in *; auto. constructor; cbn; auto.
    - unfold oct_raytrace in *. rewrite H2, H3, H4, H6 in *. destruct (box_ray _ _ _ _ _) as [[|] x]; cbn [negb] in *.
      + destruct (node_raytrace _ _ _ _ _ _ _); cbn [obind osame] in *; auto. unfold oct_add in *. cbn [o_res o_root o_off] in *.
        destruct (node_add _ _ _ _); cbn [obind osame] in *; auto. constructor; cbn; auto; left; auto.
      + cbn. constructor; auto.
    - destruct (oct_mesh o) as [[m x]| | |], (oct_mesh o') as [[m' x']| | |]; try contradiction; cbn; auto. tauto.
    - unfold oct_bbox in *. rewrite H1 in *. destruct (s_bbv (o_base o)) eqn:BV.
      + destruct (shape_bbox (o_base o) mesh_new) as [b s]. cbn [obind osame snd] in *. constructor; cbn; auto.
      + destruct (oct_mesh o) as [[m x]| | |], (oct_mesh o') as [[m' x']| | |]; try contradiction; cbn [obind osame]; auto.
        destruct SM as [[P _] [S1 S2 S3 S4 S5 S6 S7 S8]]. cbn [obind] in *.
        assert (E : snd (shape_bbox (o_base x') m') = snd (shape_bbox (o_base x) m)).
        { unfold shape_bbox. rewrite S1, P. destruct (s_bbv _); reflexivity. }
        destruct (shape_bbox (o_base x) m), (shape_bbox (o_base x') m'). cbn [snd obind] in *. subst.
        constructor; cbn; auto.
    - cbn in *. constructor; cbn; auto. rewrite H1. reflexivity.
    - cbn in *. constructor; cbn; auto. rewrite H6. reflexivity.
  Qed.
  Lemma same_run : forall f ops o o', same o o' -> osame (oct_run f o ops) (oct_run f o' ops).
  Proof.
    induction ops as [|op r IH]; intros o o' H; cbn [oct_run]; [exact H|]. pose proof (same_step f _ _ op H) as S.
    destruct (oct_step f o op), (oct_step f o' op); try contradiction; cbn [obind osame] in *; auto.
  Qed.
End Copy.
