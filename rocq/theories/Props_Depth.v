(** * Properties of the depth camera: C56-C61, C74-C77 *)
From Coq Require Import ZArith NArith List Bool Lia Reals Lra Permutation Sorting.
From Flocq Require Import Core.Raux.
From Verif Require Import Num NumOrd MathTypes Outcome Mesh Spec P_Tac P_Math P_Trig P_Mesh P_MeshGeo P_Float SpecLaser P_Laser2 P_Laser4 P_Laser5 Depth P_Depth P_Depth2 P_Depth3 P_Depth4 SpecDepth P_Depth5 P_Depth6 P_Depth7 P_Depth8 Props_Mesh.
Import ListNotations.
Local Open Scope R_scope.

(** ** C56 *)
(** the point at distance factor depth on the line of sight of a pixel is projected to the pixel plus (1/depth - 1) times the
    camera's (Tx, Ty): project2Dto3D adds Tx to cx, project3Dto2D to the point *)
Theorem C56_round_trip_partial : forall (c : cam R) (x y : Z) depth, c_fx c <> 0 -> c_fy c <> 0 -> 0 < depth ->
  project3Dto2D c (vscale (project2Dto3D c x y) depth) = V2 (IZR x + c_tx c * (1 / depth - 1)) (IZR y + c_ty c * (1 / depth - 1)).
Proof. intros c x y depth FX FY D. unfold project3Dto2D, project2Dto3D, project2Dto3DX, project2Dto3DY, vscale. cbn [vx vy vz]. unR. apply V2_eq; field; repeat split; lra. Qed.
Theorem C56_round_trip_iff_partial : forall (c : cam R) (x y : Z) depth, c_fx c <> 0 -> c_fy c <> 0 -> 0 < depth ->
  (project3Dto2D c (vscale (project2Dto3D c x y) depth) = V2 (IZR x) (IZR y) <-> (c_tx c = 0 /\ c_ty c = 0) \/ depth = 1).
Proof.
  intros c x y depth FX FY D. rewrite C56_round_trip_partial by auto. split.
  - intros E. injection E as E1 E2. assert (K : depth = 1 \/ 1 / depth - 1 <> 0). { destruct (Req_dec depth 1); [auto|right]. intros K. apply H. replace depth with (1 / (1 / depth)) by (field; lra). replace (1 / depth) with 1 by lra. field. }
    destruct K as [K|K]; [auto|]. left. split; apply Rmult_eq_reg_r with (1 / depth - 1); auto; lra.
  - intros [[-> ->]| ->]; apply V2_eq; field; lra.
Qed.
Theorem C56_refuted : exists (c : cam R) (x y : Z) depth, 0 < c_fx c /\ 0 < c_fy c /\ 0 < depth /\ project3Dto2D c (vscale (project2Dto3D c x y) depth) <> V2 (IZR x) (IZR y).
Proof.
  exists (Cam 640 480 1 1 0 0 1 0), 0%Z, 0%Z, 2. cbn [c_fx c_fy]. split; [lra|]. split; [lra|]. split; [lra|]. rewrite C56_round_trip_iff_partial by (cbn; lra). cbn [c_tx c_ty]. lra.
Qed.
(** the direction of a pixel determines the pixel, whatever the camera *)
Theorem C56_injective : forall (c : cam R) (x y x' y' : Z) depth depth', c_fx c <> 0 -> c_fy c <> 0 -> 0 < depth -> 0 < depth' ->
  vscale (project2Dto3D c x y) depth = vscale (project2Dto3D c x' y') depth' -> x = x' /\ y = y' /\ depth = depth'.
Proof.
  intros c x y x' y' d d' FX FY D D' E. unfold project2Dto3D, project2Dto3DX, project2Dto3DY, vscale in E. cbn [vx vy vz] in E. unR. injection E as E1 E2 E3. assert (d = d') by lra. subst d'.
  apply Rmult_eq_reg_r in E1; [|lra]. apply Rmult_eq_reg_r in E2; [|lra]. split; [|split; [|auto]]; apply eq_IZR.
  - apply Rmult_eq_reg_r in E1; [lra|]. apply Rinv_neq_0_compat. auto.
  - apply Rmult_eq_reg_r in E2; [lra|]. apply Rinv_neq_0_compat. auto.
Qed.
Example C56_nonvacuous : let c := Cam 640 480 500 500 320 240 0 0 in 0 < c_fx c /\ project3Dto2D c (vscale (project2Dto3D c 100 200) 3) = V2 100 200.
Proof. cbv zeta. split; [cbn; lra|]. rewrite C56_round_trip_iff_partial by (cbn; lra). left. cbn. lra. Qed.

(** ** C57 *)
Section ZBuf.
  Context {T : Type} {NT : Num T} {NO : NumOrd T} {NTr : NumTrunc T}.
  (** after any sequence of renderPixel calls with non-zero numbers as depths: a pixel is as before, or holds a rendered depth, its triangle and the
      pointer; the depth held is not larger than any depth rendered there nor, unless it was empty, than the depth before *)
  Theorem C57_zbuffer : forall ps (s s' : drr T) x y (r r' : T), draw_pixels renderPixel s ps = Ret s' -> (forall p, In p ps -> real_range (px_d p)) ->
    get2 (d_img s) y x = Ret r -> get2 (d_img s') y x = Ret r' ->
    (cell_same s s' x y \/ exists p, In p ps /\ cell_from s s' x y p /\ (neqb r n0 = true \/ nltb r' r = true)) /\
    (forall p, In p ps -> px_x p = x -> px_y p = y -> nltb (px_d p) r' = false) /\
    ((exists p, In p ps /\ px_x p = x /\ px_y p = y) -> neqb r' n0 = false) /\ (neqb r n0 = false -> nltb r r' = false).
  Proof.
    intros ps s s' x y r r' H RD G G'. destruct (pixels_spec ps s s' x y r r' H RD G G') as [A B]. split; auto. destruct A as [A|[p [I [F W]]]]; [auto|right]. exists p. split; auto. split; auto. apply orb_prop. exact W.
  Qed.
  Theorem C57_untouched : forall ps (s s' : drr T) x y, draw_pixels renderPixel s ps = Ret s' -> (forall p, In p ps -> (px_x p, px_y p) <> (x, y)) -> cell_same s s' x y.
  Proof. exact pixels_untouched. Qed.
  (** the depths do not depend on the order *)
  Theorem C57_order : forall ps qs (s s1 s2 : drr T) x y (r r1 r2 : T), Permutation ps qs -> draw_pixels renderPixel s ps = Ret s1 -> draw_pixels renderPixel s qs = Ret s2 ->
    (forall p, In p ps -> real_range (px_d p)) -> get2 (d_img s) y x = Ret r -> get2 (d_img s1) y x = Ret r1 -> get2 (d_img s2) y x = Ret r2 -> nltb r1 r2 = false /\ nltb r2 r1 = false.
  Proof.
    assert (HALF : forall ps qs (s s1 s2 : drr T) x y (r r1 r2 : T), Permutation ps qs -> draw_pixels renderPixel s ps = Ret s1 -> draw_pixels renderPixel s qs = Ret s2 ->
      (forall p, In p ps -> real_range (px_d p)) -> get2 (d_img s) y x = Ret r -> get2 (d_img s1) y x = Ret r1 -> get2 (d_img s2) y x = Ret r2 -> nltb r1 r2 = false).
    { intros ps qs s s1 s2 x y r r1 r2 P H1 H2 RD G G1 G2. assert (RD2 : forall p, In p qs -> real_range (px_d p)) by (intros p I; apply RD; eapply Permutation_in; [apply Permutation_sym; exact P|auto]).
      destruct (C57_zbuffer ps s s1 x y r r1 H1 RD G G1) as [A1 [B1 [C1 D1]]]. destruct (C57_zbuffer qs s s2 x y r r2 H2 RD2 G G2) as [A2 [B2 [C2 D2]]].
      destruct A1 as [[A1 _]|[p [I [[X [Y [GP _]]] _]]]].
      - assert (r1 = r) by congruence. subst r1. destruct (neqb r n0) eqn:EZ; [|auto].
        destruct A2 as [[A2 _]|[q [I [[X [Y [GQ _]]] _]]]]; [assert (r2 = r) by congruence; subst r2; apply nlt_irrefl|].
        exfalso. cut (true = false); [discriminate|]. apply C1. exists q. split; [eapply Permutation_in; [apply Permutation_sym; exact P|auto]|auto].
      - assert (r1 = px_d p) by congruence. subst r1. apply B2; auto. eapply Permutation_in; eauto. }
    intros ps qs s s1 s2 x y r r1 r2 P H1 H2 RD G G1 G2. split; [eapply (HALF ps qs); eauto|]. eapply (HALF qs ps); eauto; [apply Permutation_sym; auto|].
    intros p I. apply RD. eapply Permutation_in; [apply Permutation_sym; exact P|auto].
  Qed.
  (** rasterize is such a sequence, made of the pixels of the mesh *)
  Theorem C57_rasterize : forall c (m : mesh T) pose img cols pm ptr tm s' ps, pixels_of c m pose true (Z.of_nat cols) (Z.of_nat (length img)) = Ret ps -> rasterize c m pose img cols pm ptr tm = Ret s' ->
    draw_pixels renderPixel (drr_make img cols ptr pm tm) ps = Ret s'.
  Proof. intros c m pose img cols pm ptr tm s' ps P H. unfold rasterize in H. rewrite (render_pixels_of _ _ _ _ _ _ _ _ _ _ P) in H. exact H. Qed.
End ZBuf.
Theorem C57_order_real : forall ps qs (s s1 s2 : drr R) x y r r1 r2, Permutation ps qs -> draw_pixels renderPixel s ps = Ret s1 -> draw_pixels renderPixel s qs = Ret s2 ->
  (forall p, In p ps -> px_d p <> 0) -> get2 (d_img s) y x = Ret r -> get2 (d_img s1) y x = Ret r1 -> get2 (d_img s2) y x = Ret r2 -> r1 = r2.
Proof.
  intros ps qs s s1 s2 x y r r1 r2 P H1 H2 NZ G G1 G2. destruct (C57_order ps qs s s1 s2 x y r r1 r2 P H1 H2) as [A B]; auto.
  - intros p I. split; unR; [apply Reqb_true; auto|apply Reqb_false; auto].
  - unR. apply Rltb_false in A. apply Rltb_false in B. lra.
Qed.
(** two pixels rendered to the same place and one elsewhere, over doubles *)
Definition c57_s : drr F64 := DRR [[nofZ 0; nofZ 7]; [nofZ 2; nofZ 0]] (Some 5%nat) [[None; None]; [None; None]] [[-1; -1]; [-1; -1]]%Z.
Definition c57_ps : list (pixel F64) := [Pixel 0 0 (nofZ 3) 1; Pixel 0 0 (nofZ 2) 4; Pixel 1 0 (nofZ 9) 3; Pixel 0 1 (nofZ 1) 8].
Example C57_nonvacuous : (exists s', draw_pixels renderPixel c57_s c57_ps = Ret s' /\ get2 (d_tmap s') 0 0 = Ret 4%Z /\ get2 (d_tmap s') 1 0 = Ret (-1)%Z /\ get2 (d_tmap s') 0 1 = Ret 8%Z) /\ (forall p, In p c57_ps -> real_range (px_d p)).
Proof.
  split.
  - destruct (oret_ex _ (draw_pixels renderPixel c57_s c57_ps) (fun s' => match get2 (d_tmap s') 0 0, get2 (d_tmap s') 1 0, get2 (d_tmap s') 0 1 with Ret a, Ret b, Ret e => Z.eqb a 4 && Z.eqb b (-1) && Z.eqb e 8 | _, _, _ => false end)) as [s' [E C]]; [vm_compute; reflexivity|].
    exists s'. split; auto. destruct (get2 (d_tmap s') 0 0); try discriminate. destruct (get2 (d_tmap s') 1 0); try discriminate. destruct (get2 (d_tmap s') 0 1); try discriminate.
    apply andb_prop in C as [C C3]. apply andb_prop in C as [C1 C2]. apply Z.eqb_eq in C1. apply Z.eqb_eq in C2. apply Z.eqb_eq in C3. subst. auto.
  - intros p [<-|[<-|[<-|[<-|[]]]]]; split; vm_compute; reflexivity.
Qed.

(** ** C58 *)
Section Inside.
  Context {T : Type} {NT : Num T} {NO : NumOrd T} {NTr : NumTrunc T}.
  (** whatever the RenderResult does with them (and wherever it stops), it is only handed pixels inside the image, of triangles of the mesh *)
  Theorem C58_inside : forall S (rp : S -> pixel T -> outcome S) stop c (m : mesh T) pose cull w h s s', cam_render rp stop c m pose cull w h s = Ret s' ->
    exists ps, draw_pixels rp s ps = Ret s' /\ forall p, In p ps -> (0 <= px_x p < w)%Z /\ (0 <= px_y p < h)%Z /\ exists k, (0 <= k < Z.of_nat (length (m_tris m)))%Z /\ px_i p = s32 k.
  Proof.
    intros S rp stop c m pose cull w h s s' H. unfold cam_render in H. destruct (nltb _ _); [injection H as <-; exists []; split; auto; intros p []|].
    destruct (existsb _ _); [|injection H as <-; exists []; split; auto; intros p []]. apply loop_pixels in H as [qs [Q QI]]. exists qs. split; auto. intros p I. destruct (QI p I) as [[A B] C]. auto.
  Qed.
  (** the indices are those of the triangles as long as they fit in an int *)
  Theorem C58_index : forall k, (0 <= k < 2147483648)%Z -> s32 k = k.
  Proof. intros k K. unfold s32. rewrite Z.mod_small by lia. lia. Qed.
  (** maps shared by a sequence of rasterize calls *)
  Record call := Call { k_mesh : mesh T; k_pose : trans3 T; k_img : list (list T); k_cols : nat; k_ptr : option nat }.
  Fixpoint calls (c : cam T) (pm : list (list (option nat))) (tm : list (list Z)) (l : list call) : outcome (list (drr T)) :=
    match l with
    | [] => Ret []
    | k :: r => let* s := rasterize c (k_mesh k) (k_pose k) (k_img k) (k_cols k) pm (k_ptr k) tm in let* rest := calls c (d_pmap s) (d_tmap s) r in Ret (s :: rest)
    end.
  Definition rect (img : list (list T)) (cols : nat) : Prop := forall r, In r img -> length r = cols.
  Lemma rect_sized : forall img cols, rect img cols -> sized img (Z.of_nat (length img)) (Z.of_nat cols).
  Proof. intros img cols RC. apply tall_sized. intros r I. rewrite (RC r I). auto. Qed.
  Lemma make_ok : forall img cols ptr pm tm r, rect img cols -> all_tall pm r -> all_tall tm r -> (length img <= r)%nat ->
    drr_ok (drr_make img cols ptr pm tm) (Z.of_nat cols) (Z.of_nat (length img)) /\ maps_tall (drr_make img cols ptr pm tm) (length img).
  Proof.
    intros img cols ptr pm tm r RC PT TT LE.
    assert (W : forall A (m : list (list A)), all_tall m r -> all_tall m (length img)) by (intros A m H e I; specialize (H e I); lia).
    assert (G : forall A (m : list (list A)) a, all_tall m r -> all_tall (reserve m cols (length img) a) (length img)) by (intros; apply reserve_tall; auto).
    assert (SZ : forall A (m : list (list A)) a, all_tall m r -> sized (reserve m cols (length img) a) (Z.of_nat cols) (Z.of_nat (length img))).
    { intros A m a H. pose proof (tall_sized _ _ _ (G A m a H)) as K. rewrite reserve_length in K. exact K. }
    split; [split; [|split]|split].
    - apply rect_sized. auto.
    - cbn [drr_make d_ptr d_pmap]. intros NE. destruct ptr; [|congruence]. apply SZ. auto.
    - cbn [drr_make d_tmap]. intros _. apply SZ. auto.
    - cbn [drr_make d_pmap]. destruct ptr; auto.
    - cbn [drr_make d_tmap]. auto.
  Qed.
  (** maps that start empty are large enough for every call as long as the images do not get higher *)
  Theorem C58_maps_partial : forall c l, (forall k, In k l -> rect (k_img k) (k_cols k)) -> StronglySorted (fun a b => (length (k_img b) <= length (k_img a))%nat) l ->
    (forall k, In k l -> exists ps, pixels_of c (k_mesh k) (k_pose k) true (Z.of_nat (k_cols k)) (Z.of_nat (length (k_img k))) = Ret ps) -> exists outs, calls c [] [] l = Ret outs.
  Proof.
    intros c l RC ST PX.
    assert (GEN : forall pm tm, (forall k, In k l -> all_tall pm (length (k_img k)) /\ all_tall tm (length (k_img k))) -> exists outs, calls c pm tm l = Ret outs).
    { induction l as [|k r IH]; intros pm tm TL; [exists []; reflexivity|]. cbn [calls].
      destruct (PX k (or_introl eq_refl)) as [ps P]. unfold rasterize. rewrite (render_pixels_of _ _ _ _ _ _ _ _ _ _ P). destruct (TL k (or_introl eq_refl)) as [T1 T2].
      destruct (make_ok (k_img k) (k_cols k) (k_ptr k) pm tm _ (RC k (or_introl eq_refl)) T1 T2 (le_n _)) as [OK MT].
      destruct (pixels_ret ps _ _ _ OK) as [s' [E _]]. { intros p I. apply (pixels_of_in _ _ _ _ _ _ _ P p I). }
      rewrite E. cbn [obind]. pose proof (pixels_tall _ _ _ _ E MT) as [M1 M2]. apply StronglySorted_inv in ST as [S1 S2]. rewrite Forall_forall in S2.
      destruct (IH (fun k' I => RC k' (or_intror I)) S1 (fun k' I => PX k' (or_intror I)) (d_pmap s') (d_tmap s')) as [outs O].
      { intros k' I. specialize (S2 k' I). split; intros e J; [specialize (M1 e J)|specialize (M2 e J)]; lia. }
      rewrite O. cbn [obind]. eauto. }
    apply GEN. intros k _. split; intros e [].
  Qed.
End Inside.
(** an image with more rows than the one the maps were made for: access outside of the map's columns *)
Definition c58_cam : cam F64 := Cam 2 2 (nofZ 1) (nofZ 1) (nofZ 0) (nofZ 0) (nofZ 0) (nofZ 0).
Definition c58_mesh : mesh F64 := match mesh_run mesh_new [OAddPoint (V3 (nofZ 0) (nofZ 0) (nofZ (-1))); OAddPoint (V3 (nofZ 0) (nofZ (-4)) (nofZ (-1))); OAddPoint (V3 (nofZ 4) (nofZ 0) (nofZ (-1))); OAddTriangle 0 1 2] with Ret m => m | _ => mesh_new end.
Definition id_pose {T} {NT : Num T} : trans3 T := T3 (M3 n1 n0 n0 n0 n1 n0 n0 n0 n1) (V3 n0 n0 n0).
Definition c58_k (rows : nat) : call := Call c58_mesh id_pose (repeat (repeat (nofZ 0 : F64) 2) rows) 2 (Some 7%nat).
Theorem C58_refuted : (exists outs, calls c58_cam [] [] [c58_k 1] = Ret outs) /\ (exists outs, calls c58_cam [] [] [c58_k 2] = Ret outs) /\ calls c58_cam [] [] [c58_k 1; c58_k 2] = UB.
Proof.
  split; [|split].
  - destruct (oret_ex _ (calls c58_cam [] [] [c58_k 1]) (fun _ => true)) as [o [N _]]; [vm_compute; reflexivity|eauto].
  - destruct (oret_ex _ (calls c58_cam [] [] [c58_k 2]) (fun _ => true)) as [o [N _]]; [vm_compute; reflexivity|eauto].
  - vm_compute. reflexivity.
Qed.
(** a finite mesh whose image coordinates do not fit in an int: undefined behaviour, whatever the image *)
Definition c58_wide : mesh F64 := match mesh_run mesh_new [OAddPoint (V3 (nofZ 0) (nofZ 0) (nofZ (-1))); OAddPoint (V3 (nofZ 0) (nofZ (-4000000000)) (nofZ (-1))); OAddPoint (V3 (nofZ 4000000000) (nofZ 0) (nofZ (-1))); OAddTriangle 0 1 2] with Ret m => m | _ => mesh_new end.
Theorem C58_cast_refuted : rasterize c58_cam c58_wide id_pose [[nofZ 0; nofZ 0]] 2 [] None [] = UB.
Proof. vm_compute. reflexivity. Qed.
Example C58_nonvacuous : exists ps, pixels_of c58_cam c58_mesh id_pose true 2 2 = Ret ps /\ length ps = 5%nat.
Proof. destruct (oret_ex _ (pixels_of c58_cam c58_mesh id_pose true 2 2) (fun l => Nat.eqb (length l) 5)) as [l [N C]]; [vm_compute; reflexivity|]. exists l. split; auto. apply Nat.eqb_eq; auto. Qed.

(** ** C59 *)
(** the triangles drawn for a triangle cover exactly the part of it with z <= -0.1 (if some vertex has z < -0.1) *)
Theorem C59_cover : forall p1 p2 p3 x, (exists v, (v = p1 \/ v = p2 \/ v = p3) /\ vz v < -1/10) ->
  ((exists a b c, In (a, b, c) (clip_tri p1 p2 p3) /\ in_triangle a b c x) <-> in_triangle p1 p2 p3 x /\ vz x <= -1/10).
Proof. intros p1 p2 p3 x [v [V L]]. rewrite <- near_R in *. apply (clip_cover p1 p2 p3 x). destruct V as [->|[->| ->]]; auto. Qed.
(** nothing is drawn if no vertex is in front of the near plane; then no point of the triangle is *)
Theorem C59_none : forall p1 p2 p3, (forall v, v = p1 \/ v = p2 \/ v = p3 -> -1/10 <= vz v) -> clip_tri p1 p2 p3 = [] /\ forall x, in_triangle p1 p2 p3 x -> -1/10 <= vz x.
Proof.
  intros p1 p2 p3 H. split; [apply clip_none; rewrite near_R; apply H; auto|]. intros x I. eapply tri_above; [exact I| | |]; apply H; auto.
Qed.
(** the orientation is kept: the normal of each drawn triangle is a positive multiple of the normal of the triangle *)
Theorem C59_orientation : forall p1 p2 p3 a b c, (forall v, v = p1 \/ v = p2 \/ v = p3 -> vz v <> -1/10) -> In (a, b, c) (clip_tri p1 p2 p3) ->
  exists k, 0 < k /\ s_normal a b c = V3 (k * vx (s_normal p1 p2 p3)) (k * vy (s_normal p1 p2 p3)) (k * vz (s_normal p1 p2 p3)).
Proof. intros p1 p2 p3 a b c H I. apply (clip_orient p1 p2 p3 a b c); auto; rewrite near_R; apply H; auto. Qed.
(** a vertex exactly on the near plane gives a degenerate triangle, never one turned around *)
Theorem C59_orientation_weak : forall p1 p2 p3 a b c, In (a, b, c) (clip_tri p1 p2 p3) ->
  exists k, 0 <= k /\ s_normal a b c = V3 (k * vx (s_normal p1 p2 p3)) (k * vy (s_normal p1 p2 p3)) (k * vz (s_normal p1 p2 p3)).
Proof. intros p1 p2 p3 a b c I. apply (clip_nn p1 p2 p3 a b c I). Qed.
(** the early return of render for a mesh behind the camera loses nothing *)
Theorem C59_behind : forall (m : mesh R) ops l pose a b d x, mesh_run mesh_new ops = Ret m -> soup_of m = Some l -> rigid pose -> In (a, b, d) l ->
  fst (getMaxRadius m) < vz (MathTypes.tt pose) -> in_triangle (s_moved pose a) (s_moved pose b) (s_moved pose d) x -> -1/10 < vz x.
Proof.
  intros m ops l pose a b d x M S RG I L T. destruct (C16_radius m ops M) as [_ [RT _]]. destruct (moved_combo pose a b d x T) as [v [V ->]]. pose proof (RT l a b d v S I V) as NV.
  pose proof (moved_off pose v RG) as MO. pose proof (norm_z (s_diff (s_moved pose v) (MathTypes.tt pose))) as NZ. rewrite MO in NZ. unfold s_diff in NZ. cbn [vz] in NZ.
  pose proof (Rle_abs (- (vz (s_moved pose v) - vz (MathTypes.tt pose)))) as A. rewrite Rabs_Ropp in A. lra.
Qed.
Example C59_nonvacuous : let p1 := V3 0 0 (-1) in let p2 := V3 1 0 0 in let p3 := V3 0 1 (-2) in length (clip_tri p1 p2 p3) = 2%nat /\ in_triangle p1 p2 p3 (V3 (1/4) (1/4) (-1)) /\ (exists v, (v = p1 \/ v = p2 \/ v = p3) /\ vz v < -1/10).
Proof.
  cbv zeta. split; [|split].
  - unfold clip_tri. cbn [vz]. rewrite near_R. cbn [nltb NumR]. repeat (rcase; try lra). reflexivity.
  - exists (1/2), (1/4), (1/4). cbn [vx vy vz]. split; [lra|]. split; [lra|]. split; [lra|]. split; [lra|]. apply V3_eq; lra.
  - eexists. split; [left; reflexivity|]. cbn. lra.
Qed.

(** ** C60 *)
(** a triangle with its top vertex just left of the image: the row is a single point at x in (-1, 0), the slope of the inverse depth is 0/0 *)
Definition c60_cam : cam F64 := Cam 4 4 (nofZ 1) (nofZ 1) (nofZ 0) (nofZ 0) (nofZ 0) (nofZ 0).
Definition c60_mesh : mesh F64 := match mesh_run mesh_new [OAddPoint (V3 (nlit (-1) 2) (nofZ 0) (nofZ (-1))); OAddPoint (V3 (nofZ 0) (nofZ (-4)) (nofZ (-1))); OAddPoint (V3 (nofZ 4) (nofZ (-2)) (nofZ (-1))); OAddTriangle 0 1 2] with Ret m => m | _ => mesh_new end.
Definition c60_img : list (list F64) := repeat (repeat (nofZ 0) 4) 4.
Theorem C60_refuted : exists s r, rasterize c60_cam c60_mesh id_pose c60_img 4 [] None [] = Ret s /\ get2 (d_img s) 0 0 = Ret r /\ neqb r r = false.
Proof.
  destruct (oret_ex _ (rasterize c60_cam c60_mesh id_pose c60_img 4 [] None []) (fun s => match get2 (d_img s) 0 0 with Ret r => negb (neqb r r) | _ => false end)) as [s [N C]]; [vm_compute; reflexivity|].
  exists s. destruct (get2 (d_img s) 0 0) as [r| | |]; [|discriminate C..]. exists r. split; [exact N|]. split; [reflexivity|]. apply negb_true_iff. exact C.
Qed.
(** and the NaN is never replaced: no later pixel compares smaller, and the pixel does not count as empty *)
Theorem C60_nan_stays : forall ps (s s' : drr F64) x y r, draw_pixels renderPixel s ps = Ret s' -> get2 (d_img s) y x = Ret r -> neqb r r = false -> get2 (d_img s') y x = Ret r.
Proof.
  induction ps as [|p ps IH]; intros s s' x y r H G N; [injection H as <-; auto|]. cbn [draw_pixels] in H. destruct (renderPixel s p) as [s1| | |] eqn:E; try discriminate. cbn [obind] in H.
  apply (IH s1 s' x y r H); auto. destruct (pixel_spec _ _ _ E) as [old [GO [_ [_ [O W]]]]].
  assert (DEC : {(x, y) = (px_x p, px_y p)} + {(x, y) <> (px_x p, px_y p)}) by (decide equality; apply Z.eq_dec). destruct DEC as [D|D]; [|destruct (O x y D) as [O1 _]; congruence].
  injection D as -> ->. assert (old = r) by congruence. subst old. assert (W0 : wins r (px_d p) = false).
  { unfold wins. apply orb_false_iff. split.
    - destruct (neqb r n0) eqn:K; auto. apply neqb_key in K as [k [K _]]. assert (neqb r r = true) by (apply neqb_key; eauto). congruence.
    - destruct (nltb (px_d p) r) eqn:K; auto. apply nltb_key in K as [u [v [U [V L]]]]. assert (neqb r r = true) by (apply neqb_key; eauto). congruence. }
  rewrite W0 in W. congruence.
Qed.
(** a row that starts inside the image begins with the depth of its start, whatever the slope *)
Theorem C60_first_pixel_partial : forall T {NT : Num T} w y (xs xe ds de : T) i p ps, row w y xs xe ds de i = Ret (p :: ps) -> nltb xs n0 = false -> px_d p = fdiv n1 ds.
Proof.
  intros T NT w y xs xe ds de i p ps H L. unfold row in H. rewrite L in H. destruct (or_ub (toint xs)) as [z| | |]; try discriminate. cbn [obind] in H.
  destruct (or_ub (toint xe)) as [z'| | |]; try discriminate. cbn [obind] in H. destruct (Z.to_nat _); [discriminate|]. cbn [row_px] in H. injection H as <- _. reflexivity.
Qed.

(** ** C61 *)
Section Sorting.
  Context {T : Type} {NT : Num T} {NO : NumOrd T} {NTr : NumTrunc T}.
  (** sort permutes the three vertices and, unless a key is NaN, orders them *)
  Theorem C61_permutes : forall (f : vec3 T -> T) a b c p q r, sort3 f a b c = (p, q, r) -> Permutation [a; b; c] [p; q; r].
  Proof. exact sort_perm. Qed.
  Theorem C61_sorts : forall (f : vec3 T -> T) a b c p q r, sort3 f a b c = (p, q, r) -> (forall v, v = a \/ v = b \/ v = c -> neqb (f v) (f v) = true) ->
    nleb (f p) (f q) = true /\ nleb (f q) (f r) = true.
  Proof. exact sort_sorted. Qed.
  (** when the truncated rows of the vertices differ, the sorted rows span more than one row: the split point divides by a positive number *)
  Theorem C61_divisor : forall (a b c p q r : vec3 T) (y1 y2 y3 x y z : Z), sort3 vy a b c = (p, q, r) ->
    toint (vy a) = Some y1 -> toint (vy b) = Some y2 -> toint (vy c) = Some y3 -> toint (vy p) = Some x -> toint (vy q) = Some y -> toint (vy r) = Some z ->
    Z.min y1 (Z.min y2 y3) <> Z.max y1 (Z.max y2 y3) -> (0 < z - x)%Z /\ (0 <= y - x)%Z /\ (0 <= z - y)%Z /\ (z - x = (y - x) + (z - y))%Z.
  Proof. intros a b c p q r y1 y2 y3 x y z S A B C P Q R0 NE. destruct (sort_span a b c p q r y1 y2 y3 x y z S A B C P Q R0) as [O [X Z]]. lia. Qed.
End Sorting.
Example C61_nonvacuous : exists p q r : vec3 F64, sort3 vy (V3 (nofZ 0) (nofZ 5) (nofZ 1)) (V3 (nofZ 1) (nofZ 2) (nofZ 1)) (V3 (nofZ 2) (nofZ 3) (nofZ 1)) = (p, q, r) /\ toint (vy p) = Some 2%Z /\ toint (vy q) = Some 3%Z /\ toint (vy r) = Some 5%Z.
Proof. do 3 eexists. split; [reflexivity|]. split; [vm_compute; reflexivity|]. split; vm_compute; reflexivity. Qed.

(** ** C74 *)
(** a triangle of one row, from x = 0.9 to x = 1, with depths from 1 to 2: the row starts at pixel 0 with the depth at 0.9 and reaches pixel 1 a full step further, with a negative depth *)
Definition c74_p1 : vec3 F64 := V3 (nf32 (nlit 9 10)) (nlit 3 2) (nofZ 1).
Definition c74_p2 : vec3 F64 := V3 (nofZ 1) (nlit 3 2) (nlit 1 2).
Definition c74_p3 : vec3 F64 := V3 (nofZ 1) (nlit 5 4) (nlit 1 2).
Theorem C74_refuted : exists ps p, drawTriangle2D true 4 4 c74_p1 c74_p2 c74_p3 0 = Ret ps /\ In p ps /\ nltb (px_d p) (nofZ 0) = true.
Proof.
  destruct (oret_ex _ (drawTriangle2D true 4 4 c74_p1 c74_p2 c74_p3 0) (fun ps => existsb (fun p => nltb (px_d p) (nofZ 0 : F64)) ps)) as [ps [N C]]; [vm_compute; reflexivity|].
  exists ps. apply existsb_exists in C as [p [I L]]. exists p. split; [exact N|]. split; [exact I|exact L].
Qed.
(** what holds: the depth is the exact (perspective) depth of the moved triangle at a column coordinate X less than one pixel to the right of the pixel's
    left edge, provided the row of the triangle reaches that far; then it lies between the depths of the vertices *)
Theorem C74_depth_partial : forall cull w h p1 p2 p3 i ps p, coords_ok p1 p2 p3 -> drawTriangle2D cull w h p1 p2 p3 i = Ret ps -> In p ps ->
  exists Xb X D, (exists D', s_in_row p1 p2 p3 (px_y p) Xb D') /\ (px_x p <= Ztrunc Xb)%Z /\ IZR (px_x p) <= X < IZR (px_x p) + 1 /\ px_d p = 1 / D /\
    (X <= Xb -> s_in_row p1 p2 p3 (px_y p) X D /\ Rmin (vz p1) (Rmin (vz p2) (vz p3)) <= D <= Rmax (vz p1) (Rmax (vz p2) (vz p3))).
Proof.
  intros cull w h p1 p2 p3 i ps p CO E I. destruct (tri2d_R cull w h p1 p2 p3 i CO) as [qs [E2 [P _]]]. rewrite E in E2. injection E2 as <-. destruct (P p I) as [_ [_ SH]].
  destruct (shaded_line _ _ _ _ _ _ _ SH) as [Xa [Xb [X [D [L [T [_ [B [XI [XA [ED IN]]]]]]]]]]]. exists Xb, X, D. split; auto. split; [lia|]. split; auto. split; auto. intros LE. specialize (IN LE). split; auto.
  destruct IN as [u [v [t [U [V [W [SUM EQ]]]]]]]. injection EQ as _ _ EZ. cbn [s_snap vz] in EZ. rewrite EZ. destruct (tri_max vz u v t p1 p2 p3 U V W SUM). auto.
Qed.

(** ** C75 *)
(** image triangle in clockwise order, as seen in the image with y pointing down: the front side, kept by culling *)
Definition s_clockwise (p1 p2 p3 : vec3 R) : Prop := (vx p2 - vx p1) * (vy p3 - vy p1) - (vx p3 - vx p1) * (vy p2 - vy p1) < 0.
Lemma front_clockwise : forall p1 p2 p3 : vec3 R, front2d p1 p2 p3 = true <-> s_clockwise p1 p2 p3.
Proof. intros. unfold front2d, s_clockwise. unF. apply Rltb_true. Qed.
(** off the first row and column of the image the pixels drawn are exactly those the moved triangle has a point in *)
Theorem C75_footprint_partial : forall cull w h p1 p2 p3 i, coords_ok p1 p2 p3 -> exists ps, drawTriangle2D cull w h p1 p2 p3 i = Ret ps /\
  (forall p, In p ps -> (cull = true -> s_clockwise p1 p2 p3) /\ (0 <= px_x p < w)%Z /\ (0 <= px_y p < h)%Z /\ px_i p = i /\ s_footprint p1 p2 p3 (px_x p) (px_y p)) /\
  ((cull = true -> s_clockwise p1 p2 p3) -> forall x y, (0 < x < w)%Z -> (0 < y < h)%Z -> s_footprint p1 p2 p3 x y -> exists p, In p ps /\ px_x p = x /\ px_y p = y) /\
  ((cull = true -> s_clockwise p1 p2 p3) -> (exists v, (v = p1 \/ v = p2 \/ v = p3) /\ (0 < Ztrunc (vx v))%Z) -> (exists v, (v = p1 \/ v = p2 \/ v = p3) /\ (0 < Ztrunc (vy v))%Z) ->
    forall x y, (0 <= x < w)%Z -> (0 <= y < h)%Z -> s_footprint p1 p2 p3 x y -> exists p, In p ps /\ px_x p = x /\ px_y p = y).
Proof.
  intros cull w h p1 p2 p3 i CO. destruct (tri2d_R cull w h p1 p2 p3 i CO) as [ps [E [P Q]]]. exists ps. split; auto. split; [|split].
  - intros p I. destruct (P p I) as [F [_ SH]]. split; [intros K; apply front_clockwise; auto|]. pose proof (shaded_foot _ _ _ _ _ _ _ SH) as FT. destruct SH as [[X Y] [IX _]]. auto.
  - intros F x y X Y FT. apply Q; auto; try lia; [intros K; apply front_clockwise; auto|]. eapply touches_in; eauto.
  - intros F [vx0 [VX LX]] [vy0 [VY LY]] x y X Y FT. apply Q; auto; [intros K; apply front_clockwise; auto|]. pose proof (foot_bounds _ _ _ _ _ FT) as [BX BY].
    unfold touches. repeat rewrite andb_true_iff. repeat split; apply Z.ltb_lt; destruct VX as [->|[->| ->]]; destruct VY as [->|[->| ->]]; lia.
Qed.
Lemma trunc_half : Ztrunc (1/2) = 0%Z.
Proof. rewrite Ztrunc_floor by lra. apply Zfloor_imp. cbn. lra. Qed.
(** a triangle confined to the first column is not drawn at all *)
Theorem C75_refuted : exists p1 p2 p3 x y, coords_ok p1 p2 p3 /\ s_clockwise p1 p2 p3 /\ (0 <= x < 4)%Z /\ (0 <= y < 4)%Z /\ s_footprint p1 p2 p3 x y /\ drawTriangle2D true 4 4 p1 p2 p3 0 = Ret [].
Proof.
  set (p1 := V3 0 0 1). set (p2 := V3 0 3 1). set (p3 := V3 (1/2) 0 1). exists p1, p2, p3, 0%Z, 1%Z.
  assert (CO : coords_ok p1 p2 p3).
  { unfold coords_ok, castable. split.
    - intros v [->|[->| ->]]; cbn [p1 p2 p3 vx vy]; rewrite ?Ztrunc_IZR, ?trunc_half; lia.
    - intros u v [->|[->| ->]] [->|[->| ->]]; cbn [p1 p2 p3 vx vy]; rewrite ?Ztrunc_IZR; lia. }
  split; auto. split; [unfold s_clockwise; cbn [p1 p2 p3 vx vy]; lra|]. split; [lia|]. split; [lia|]. split.
  - exists 0, 1. split; [|apply Ztrunc_IZR]. exists (2/3), (1/3), 0. cbn [p1 p2 p3 s_snap vx vy vz]. rewrite !Ztrunc_IZR. split; [lra|]. split; [lra|]. split; [lra|]. split; [lra|]. apply V3_eq; lra.
  - destruct (tri2d_R true 4 4 p1 p2 p3 0 CO) as [ps [E [P _]]]. rewrite E. destruct ps as [|p ps]; auto. exfalso. destruct (P p (or_introl eq_refl)) as [_ [T _]].
    unfold touches in T. cbn [p1 p2 p3 vx vy] in T. rewrite !Ztrunc_IZR, trunc_half in T. discriminate.
Qed.
Example C75_nonvacuous : let p1 := V3 0 0 1 in let p2 := V3 0 3 1 in let p3 := V3 3 0 1 in coords_ok p1 p2 p3 /\ s_clockwise p1 p2 p3 /\ s_footprint p1 p2 p3 1 1.
Proof.
  cbv zeta. split; [|split].
  - unfold coords_ok, castable. split.
    + intros v [->|[->| ->]]; cbn [vx vy]; rewrite ?Ztrunc_IZR; lia.
    + intros u v [->|[->| ->]] [->|[->| ->]]; cbn [vx vy]; rewrite ?Ztrunc_IZR; lia.
  - unfold s_clockwise. cbn [vx vy]. lra.
  - exists 1, 1. split; [|apply Ztrunc_IZR]. exists (1/3), (1/3), (1/3). cbn [s_snap vx vy vz]. rewrite !Ztrunc_IZR. split; [lra|]. split; [lra|]. split; [lra|]. split; [lra|]. apply V3_eq; lra.
Qed.

(** ** C76 *)
(** projecting a triangle in front of the camera: image position and inverse depth of its points are those of the image triangle spanned by the
    projected vertices with their inverse depths, in both directions *)
Theorem C76_perspective : forall (c : cam R) p1 p2 p3, vz p1 < 0 -> vz p2 < 0 -> vz p3 < 0 ->
  (forall x X Y, in_triangle p1 p2 p3 x -> s_sees (c_fx c) (c_fy c) (c_cx c) (c_cy c) (c_tx c) (c_ty c) x X Y -> in_triangle (project_vert c p1) (project_vert c p2) (project_vert c p3) (V3 X Y (1 / - vz x))) /\
  (forall X Y D, in_triangle (project_vert c p1) (project_vert c p2) (project_vert c p3) (V3 X Y D) -> exists x, in_triangle p1 p2 p3 x /\ s_sees (c_fx c) (c_fy c) (c_cx c) (c_cy c) (c_tx c) (c_ty c) x X Y /\ D = 1 / - vz x).
Proof.
  intros c p1 p2 p3 L1 L2 L3. split.
  - intros x X Y I [-> ->]. exact (project_in c p1 p2 p3 x L1 L2 L3 I).
  - intros X Y D I. destruct (project_onto c p1 p2 p3 _ L1 L2 L3 I) as [x [IN [_ E]]]. injection E as EX EY ED. exists x. split; auto. split; [split|]; auto.
Qed.
(** the triangles kept by culling are those whose front faces the centre of projection *)
Theorem C76_culling : forall (c : cam R) p1 p2 p3, 0 < c_fx c -> 0 < c_fy c -> vz p1 < 0 -> vz p2 < 0 -> vz p3 < 0 ->
  (s_clockwise (project_vert c p1) (project_vert c p2) (project_vert c p3) <-> s_facing (c_fx c) (c_fy c) (c_tx c) (c_ty c) p1 p2 p3).
Proof. intros. rewrite <- front_clockwise. apply front_facing; auto. Qed.
Example C76_nonvacuous : s_facing 1 1 0 0 (V3 0 0 (-1)) (V3 1 0 (-1)) (V3 0 1 (-1)).
Proof. unfold s_facing, s_dot, s_normal, s_diff. cbn [vx vy vz]. lra. Qed.

(** ** C77 *)
Lemma soup_points : forall (m : mesh R) l a b d, soup_of m = Some l -> In (a, b, d) l -> In a (m_points m) /\ In b (m_points m) /\ In d (m_points m).
Proof. intros m l a b d S I. exact (soup_in _ _ _ _ _ _ S I). Qed.
(** rendering a mesh whose visible points have image coordinates in range: it completes; every pixel drawn lies less than one pixel, in x and in y, from the
    image of a point of the triangle it is labelled with, in front of the near plane and facing the camera if culling is on; and the parts of the triangles in
    front of the near plane are drawn completely, off the first row and column *)
Theorem C77_render : forall (c : cam R) (m : mesh R) ops l pose cull w h, mesh_run mesh_new ops = Ret m -> soup_of m = Some l -> rigid pose -> 0 < c_fx c -> 0 < c_fy c ->
  (forall a b d, In (a, b, d) l -> s_in_range (c_fx c) (c_fy c) (c_cx c) (c_cy c) (c_tx c) (c_ty c) (s_moved pose a) (s_moved pose b) (s_moved pose d)) ->
  exists ps, pixels_of c m pose cull w h = Ret ps /\
    (forall p, In p ps -> (0 <= px_x p < w)%Z /\ (0 <= px_y p < h)%Z /\ exists k a b d q X Y, nth_error l k = Some (a, b, d) /\ px_i p = s32 (Z.of_nat k) /\
       in_triangle (s_moved pose a) (s_moved pose b) (s_moved pose d) q /\ vz q <= -1/10 /\ s_sees (c_fx c) (c_fy c) (c_cx c) (c_cy c) (c_tx c) (c_ty c) q X Y /\
       Rabs (X - IZR (px_x p)) < 1 /\ Rabs (Y - IZR (px_y p)) < 1 /\ (cull = true -> s_facing (c_fx c) (c_fy c) (c_tx c) (c_ty c) (s_moved pose a) (s_moved pose b) (s_moved pose d))) /\
    (forall k a b d t1 t2 t3 x y, nth_error l k = Some (a, b, d) -> In (t1, t2, t3) (clip_tri (s_moved pose a) (s_moved pose b) (s_moved pose d)) ->
       (cull = true -> s_facing (c_fx c) (c_fy c) (c_tx c) (c_ty c) t1 t2 t3) -> (0 < x < w)%Z -> (0 < y < h)%Z ->
       s_footprint (project_vert c t1) (project_vert c t2) (project_vert c t3) x y -> exists p, In p ps /\ px_x p = x /\ px_y p = y /\ px_i p = s32 (Z.of_nat k)).
Proof.
  intros c m ops l pose cull w h M S RG FX FY RNG. destruct (C16_radius m ops M) as [RP _]. unfold pixels_of, cam_render.
  assert (EMPTY : (forall v, In v (m_points m) -> near_clip <= vz (s_moved pose v)) -> forall k a b d t, nth_error l k = Some (a, b, d) -> ~ In t (clip_tri (s_moved pose a) (s_moved pose b) (s_moved pose d))).
  { intros V k a b d t N. apply nth_error_In in N. destruct (soup_points m l a b d S N) as [A [B D]]. rewrite clip_none by auto. intros []. }
  assert (NIL : (forall v, In v (m_points m) -> near_clip <= vz (s_moved pose v)) -> exists ps : list (pixel R), Ret [] = Ret ps /\
    (forall p, In p ps -> (0 <= px_x p < w)%Z /\ (0 <= px_y p < h)%Z /\ exists k a b d q X Y, nth_error l k = Some (a, b, d) /\ px_i p = s32 (Z.of_nat k) /\
       in_triangle (s_moved pose a) (s_moved pose b) (s_moved pose d) q /\ vz q <= -1/10 /\ s_sees (c_fx c) (c_fy c) (c_cx c) (c_cy c) (c_tx c) (c_ty c) q X Y /\
       Rabs (X - IZR (px_x p)) < 1 /\ Rabs (Y - IZR (px_y p)) < 1 /\ (cull = true -> s_facing (c_fx c) (c_fy c) (c_tx c) (c_ty c) (s_moved pose a) (s_moved pose b) (s_moved pose d))) /\
    (forall k a b d t1 t2 t3 x y, nth_error l k = Some (a, b, d) -> In (t1, t2, t3) (clip_tri (s_moved pose a) (s_moved pose b) (s_moved pose d)) ->
       (cull = true -> s_facing (c_fx c) (c_fy c) (c_tx c) (c_ty c) t1 t2 t3) -> (0 < x < w)%Z -> (0 < y < h)%Z ->
       s_footprint (project_vert c t1) (project_vert c t2) (project_vert c t3) x y -> exists p, In p ps /\ px_x p = x /\ px_y p = y /\ px_i p = s32 (Z.of_nat k))).
  { intros V. exists []. split; auto. split; [intros p []|]. intros k a b d t1 t2 t3 x y N I. exfalso. exact (EMPTY V k a b d _ N I). }
  destruct (nltb _ _) eqn:SK. { apply NIL. intros v I. apply moved_near with (fst (getMaxRadius m)); auto. unR. apply Rltb_true in SK. exact SK. }
  destruct (existsb _ _) eqn:EX.
  2:{ apply NIL. intros v I. destruct (Rle_lt_dec near_clip (vz (s_moved pose v))) as [G|G]; auto. exfalso. rewrite <- not_true_iff_false in EX. apply EX. apply existsb_exists.
      exists (tapply pose v). split; [apply in_map; auto|]. rewrite <- moved_apply. cbn [nltb NumR]. apply Rltb_true. auto. }
  clear NIL EMPTY SK EX.
  set (l' := map (fun '(a, b, d) => (s_moved pose a, s_moved pose b, s_moved pose d)) l).
  assert (S' : s_soup (map (tapply pose) (m_points m)) (map idx (m_tris m)) = Some l').
  { rewrite soup_map. unfold soup_of in S. rewrite S. cbn [option_map]. f_equal; try (apply map_ext; intros [[a b] d]; rewrite !moved_apply; reflexivity). }
  assert (NTH : forall k t, nth_error l' k = Some t -> exists a b d, nth_error l k = Some (a, b, d) /\ t = (s_moved pose a, s_moved pose b, s_moved pose d)).
  { intros k t N. unfold l' in N. rewrite nth_error_map in N. destruct (nth_error l k) as [[[a b] d]|]; [|discriminate]. injection N as <-. eauto. }
  destruct (loop_R c cull w h _ (m_tris m) l' 0 [] S') as [ps [E [P Q]]].
  { intros a b d t I T. apply In_nth_error in I as [k N]. destruct (NTH k _ N) as [a0 [b0 [d0 [N0 E0]]]]. injection E0 as -> -> ->. eapply range_coords; [|exact T]. apply RNG. eapply nth_error_In; eauto. }
  rewrite E. exists ps. split; [reflexivity|]. split.
  - intros p I. destruct (P p I) as [k [a [b [d [[[t1 t2] t3] [N [T [F [_ SH]]]]]]]]]. destruct (NTH k _ N) as [a0 [b0 [d0 [N0 E0]]]]. injection E0 as -> -> ->.
    pose proof (shaded_foot _ _ _ _ _ _ _ SH) as [X [D [ROW TX]]]. destruct SH as [[PX PY] [PI _]]. split; auto. split; auto.
    destruct (clip_view _ _ _ _ _ _ T) as [V1 [V2 V3]]. rewrite near_R in *.
    destruct (snap_near _ _ _ _ _ _ ROW) as [Y [IT NY]]. destruct (project_onto c t1 t2 t3 _ ltac:(lra) ltac:(lra) ltac:(lra) IT) as [q [IQ [_ EQ]]]. injection EQ as EX EY _.
    destruct (clip_in _ _ _ _ _ _ q T IQ) as [IN ZN]. rewrite near_R in ZN.
    exists k, a0, b0, d0, q, X, Y. split; auto. split; auto. split; auto. split; auto. split; [split; auto|]. split; [rewrite <- TX; apply trunc_near|]. split; auto.
    intros K. eapply clip_facing; [exact T|]. apply front_facing; auto; lra.
  - intros k a b d t1 t2 t3 x y N T F X Y FT. destruct (clip_view _ _ _ _ _ _ T) as [V1 [V2 V3]]. rewrite near_R in *.
    apply (Q k (s_moved pose a) (s_moved pose b) (s_moved pose d) (t1, t2, t3)); auto.
    + unfold l'. rewrite nth_error_map, N. reflexivity.
    + split; [intros K; apply front_facing; auto; lra|]. split; [eapply touches_in; eauto|]. split; [lia|]. split; [lia|auto].
Qed.
(** a mesh, camera and pose meeting the hypotheses *)
Example C77_nonvacuous : exists (m : mesh R) ops l, mesh_run mesh_new ops = Ret m /\ soup_of m = Some l /\ l = [(V3 0 0 (-1), V3 0 (-4) (-1), V3 4 0 (-1))] /\
  forall a b d, In (a, b, d) l -> s_in_range 1 1 0 0 0 0 (s_moved id_pose a) (s_moved id_pose b) (s_moved id_pose d).
Proof.
  eexists. exists [OAddPoint (V3 0 0 (-1)); OAddPoint (V3 0 (-4) (-1)); OAddPoint (V3 4 0 (-1)); OAddTriangle 0 1 2]. eexists. split; [reflexivity|]. split; [reflexivity|]. split; [reflexivity|].
  intros a b d [E|[]]. injection E as <- <- <-. intros q X Y T Z [EX EY]. destruct (moved_combo _ _ _ _ _ T) as [v [[u [k [t [U [K [T0 [SUM ->]]]]]]] ->]].
  unfold s_moved, id_pose in *. cbn [tR MathTypes.tt mxx mxy mxz myx myy myz mzx mzy mzz vx vy vz] in *. unR.
  assert (EZ : - (0 * (u * 0 + k * 0 + t * 4) + 0 * (u * 0 + k * -4 + t * 0) + 1 * (u * -1 + k * -1 + t * -1) + 0) = 1) by (replace u with (1 - k - t) by lra; ring).
  rewrite EZ in *. rewrite EX, EY. replace u with (1 - k - t) in * by lra. split; apply Rabs_def1; lra.
Qed.

Print Assumptions C56_round_trip_partial.
Print Assumptions C56_round_trip_iff_partial.
Print Assumptions C56_refuted.
Print Assumptions C56_injective.
Print Assumptions C57_zbuffer.
Print Assumptions C57_untouched.
Print Assumptions C57_order.
Print Assumptions C57_rasterize.
Print Assumptions C57_order_real.
Print Assumptions C58_inside.
Print Assumptions C58_index.
Print Assumptions C58_maps_partial.
Print Assumptions C58_refuted.
Print Assumptions C58_cast_refuted.
Print Assumptions C59_cover.
Print Assumptions C59_none.
Print Assumptions C59_orientation.
Print Assumptions C59_orientation_weak.
Print Assumptions C59_behind.
Print Assumptions C60_refuted.
Print Assumptions C60_nan_stays.
Print Assumptions C60_first_pixel_partial.
Print Assumptions C61_permutes.
Print Assumptions C61_sorts.
Print Assumptions C61_divisor.
Print Assumptions C74_refuted.
Print Assumptions C74_depth_partial.
Print Assumptions C75_footprint_partial.
Print Assumptions C75_refuted.
Print Assumptions C76_perspective.
Print Assumptions C76_culling.
Print Assumptions C77_render.
