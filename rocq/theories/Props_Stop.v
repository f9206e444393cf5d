(** * Stopping a rendering: C92 *)
From Coq Require Import ZArith List Bool Lia.
From Verif Require Import Num NumOrd MathTypes Outcome Mesh P_Mesh P_Float Depth P_Depth P_Depth2 P_Depth3 Props_Mesh Props_Depth.
Import ListNotations.

(** the state of a RenderResult after a sequence of calls of its renderPixel *)
Fixpoint s_feed {T S : Type} (rp : S -> pixel T -> outcome S) (s : S) (ps : list (pixel T)) : outcome S :=
  match ps with [] => Ret s | p :: r => obind (rp s p) (fun s' => s_feed rp s' r) end.
(** pixels by triangle: the j-th list holds pixels of the j-th triangle only *)
Definition s_by_triangle {T : Type} (gs : list (list (pixel T))) : Prop :=
  forall j g, nth_error gs j = Some g -> forall p, In p g -> px_i p = s32 (Z.of_nat j).

Lemma feed_draw : forall T S (rp : S -> pixel T -> outcome S) ps s, s_feed rp s ps = draw_pixels rp s ps.
Proof. intros T S rp. induction ps as [|p ps IH]; intros s; [reflexivity|]. cbn [s_feed draw_pixels]. destruct (rp s p); cbn [obind]; auto. Qed.

Section Stop.
  Context {T : Type} {NT : Num T} {NO : NumOrd T} {NTr : NumTrunc T}.
  Lemma loop_stop : forall S (rp : S -> pixel T -> outcome S) stop c cull w h pts ts i s s', render_loop rp stop c cull w h pts ts i s = Ret s' ->
    exists gs, (forall j g, nth_error gs j = Some g -> forall p, In p g -> px_i p = s32 (i + Z.of_nat j)) /\ (length gs <= length ts)%nat /\
      draw_pixels rp s (concat gs) = Ret s' /\
      (forall j, (0 < j < length gs)%nat -> exists s1, draw_pixels rp s (concat (firstn j gs)) = Ret s1 /\ stop s1 = false) /\
      ((0 < length gs)%nat /\ stop s' = true \/ length gs = length ts) /\
      forall l l', render_loop (fun l p => Ret (l ++ [p])) (fun _ => false) c cull w h pts ts i l = Ret l' ->
        exists rest, l' = l ++ concat gs ++ rest /\ (length gs = length ts -> rest = []).
  Proof.
    intros S rp stop c cull w h pts. induction ts as [|t ts IH]; intros i s s' H; cbn [render_loop] in H.
    - injection H as <-. exists []. split; [intros [|j] g N; discriminate|]. split; [auto|]. split; [reflexivity|]. split; [cbn [length]; lia|]. split; [auto|].
      intros l l' L. cbn [render_loop] in L. injection L as <-. exists []. cbn [concat]. rewrite !app_nil_r. auto.
    - destruct (point_at pts (ti1 t)) as [p1|] eqn:E1; [|discriminate]. destruct (point_at pts (ti2 t)) as [p2|] eqn:E2; [|discriminate]. destruct (point_at pts (ti3 t)) as [p3|] eqn:E3; [|discriminate]. cbn [or_ub obind] in H.
      destruct (draw_all _ _ _ _ _ _) as [ps| | |] eqn:D; try discriminate. cbn [obind] in H. destruct (draw_pixels rp s ps) as [s1| | |] eqn:P; try discriminate. cbn [obind] in H.
      assert (LP : forall l l', render_loop (fun l p => Ret (l ++ [p])) (fun _ => false) c cull w h pts (t :: ts) i l = Ret l' ->
        render_loop (fun l p => Ret (l ++ [p])) (fun _ => false) c cull w h pts ts (i + 1) (l ++ ps) = Ret l').
      { intros l l' L. cbn [render_loop] in L. rewrite E1, E2, E3 in L. cbn [or_ub obind] in L. rewrite D in L. cbn [obind] in L. rewrite collect in L. exact L. }
      assert (PI : forall p, In p ps -> px_i p = s32 (i + Z.of_nat 0)).
      { intros p I. destruct (draw_all_in _ _ _ _ _ _ _ _ D I) as [A B]. rewrite Z.add_0_r. auto. }
      destruct (stop s1) eqn:ST.
      + injection H as <-. exists [ps]. split; [intros [|[|j]] g N; try discriminate; injection N as <-; auto|]. split; [cbn [length]; lia|]. cbn [concat]. rewrite app_nil_r.
        split; [auto|]. split; [cbn [length]; lia|]. split; [left; cbn [length]; split; [lia|auto]|].
        intros l l' L. apply LP in L. destruct (loop_collect (list (pixel T)) (fun l p => Ret (l ++ [p])) _ _ _ _ _ _ _ [] _ _ L) as [qs [Q QE]].
        exists qs. rewrite Q, <- app_assoc. split; auto. cbn [length]. intros LE. destruct ts as [|t' ts]; [|discriminate]. cbn [render_loop] in QE. rewrite collect in QE. injection QE as QE. auto.
      + apply IH in H as [gs [A [B [C [E [F G]]]]]]. exists (ps :: gs).
        split; [|split; [cbn [length]; lia|split; [|split; [|split]]]].
        * intros [|j] g N; [injection N as <-; auto|]. cbn [nth_error] in N. intros p I. rewrite (A j g N p I). f_equal. lia.
        * cbn [concat]. rewrite pixels_app, P. exact C.
        * intros [|j] J; [lia|]. cbn [length] in J. cbn [firstn concat]. rewrite pixels_app, P. cbn [obind]. destruct j as [|j]; [exists s1; auto|]. apply E. lia.
        * cbn [length]. destruct F as [[F1 F2]|F]; [left; split; [lia|auto]|right; lia].
        * intros l l' L. apply LP in L. apply G in L as [rest [R1 R2]]. exists rest. cbn [concat length]. rewrite R1, <- !app_assoc. split; auto.
  Qed.

  (** a RenderResult that raises its stop flag is handed the rest of the pixels of the triangle being drawn and none of a later
      triangle; one that does not is handed everything. The calls it gets are the first calls of the rendering without a stop *)
  Theorem C92_stop : forall S (rp : S -> pixel T -> outcome S) stop c (m : mesh T) pose cull w h s s', cam_render rp stop c m pose cull w h s = Ret s' ->
    exists gs, s_by_triangle gs /\ (length gs <= length (m_tris m))%nat /\ s_feed rp s (concat gs) = Ret s' /\
      (forall j, (0 < j < length gs)%nat -> exists s1, s_feed rp s (concat (firstn j gs)) = Ret s1 /\ stop s1 = false) /\
      forall all, cam_render (fun l p => Ret (l ++ [p])) (fun _ => false) c m pose cull w h [] = Ret all ->
        exists rest, all = concat gs ++ rest /\ (stop s' = false -> rest = []).
  Proof.
    intros S rp stop c m pose cull w h s s' H. unfold cam_render in *.
    assert (NIL : forall x : S, Ret x = Ret s' -> s = x -> exists gs : list (list (pixel T)), s_by_triangle gs /\ (length gs <= length (m_tris m))%nat /\ s_feed rp s (concat gs) = Ret s' /\
      (forall j, (0 < j < length gs)%nat -> exists s1, s_feed rp s (concat (firstn j gs)) = Ret s1 /\ stop s1 = false) /\
      forall all : list (pixel T), Ret [] = Ret all -> exists rest, all = concat gs ++ rest /\ (stop s' = false -> rest = [])).
    { intros x E ->. injection E as <-. exists []. split; [intros [|j] g N; discriminate|]. split; [apply Nat.le_0_l|]. split; [reflexivity|]. split; [cbn [length]; lia|].
      intros all L. injection L as <-. exists []. auto. }
    destruct (nltb _ _); [apply (NIL _ H eq_refl)|]. destruct (existsb _ _); [|apply (NIL _ H eq_refl)]. clear NIL.
    apply loop_stop in H as [gs [A [B [C [D [E F]]]]]]. exists gs. split; [exact A|]. split; [auto|]. split; [rewrite feed_draw; auto|]. split.
    - intros j J. destruct (D j J) as [s1 [X Y]]. exists s1. rewrite feed_draw. auto.
    - intros all L. apply F in L as [rest [R1 R2]]. exists rest. split; auto. intros ST. apply R2. destruct E as [[_ E]|E]; [congruence|auto].
  Qed.
End Stop.

(** two triangles in the image; a RenderResult that stops at its first pixel *)
Definition c92_mesh : mesh F64 := match mesh_run mesh_new [OAddPoint (V3 (nofZ 0) (nofZ 0) (nofZ (-1))); OAddPoint (V3 (nofZ 0) (nofZ (-4)) (nofZ (-1))); OAddPoint (V3 (nofZ 4) (nofZ 0) (nofZ (-1))); OAddPoint (V3 (nofZ 4) (nofZ 0) (nofZ (-2))); OAddTriangle 0 1 2; OAddTriangle 0 1 3] with Ret m => m | _ => mesh_new end.
Definition c92_run (stop : list (pixel F64) -> bool) := cam_render (fun l p => Ret (l ++ [p])) stop c58_cam c92_mesh id_pose true 2 2 [].
Example C92_nonvacuous : exists few all, c92_run (fun l => negb (Nat.eqb (length l) 0)) = Ret few /\ c92_run (fun _ => false) = Ret all /\ (1 < length few < length all)%nat.
Proof.
  destruct (oret_ex _ (c92_run (fun l => negb (Nat.eqb (length l) 0))) (fun l => Nat.eqb (length l) 5)) as [l1 [N1 C1]]; [vm_compute; reflexivity|].
  destruct (oret_ex _ (c92_run (fun _ => false)) (fun l => Nat.ltb 5 (length l))) as [l2 [N2 C2]]; [vm_compute; reflexivity|].
  exists l1, l2. split; auto. split; auto. apply Nat.eqb_eq in C1. apply Nat.ltb_lt in C2. lia.
Qed.
Print Assumptions C92_stop.
