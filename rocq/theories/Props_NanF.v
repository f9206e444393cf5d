(** * C106: where invalid (NaN) depths can appear, in the arithmetic of the code (doubles projected to floats) *)
From Coq Require Import ZArith NArith List Bool Lia Reals Lra.
From Flocq Require Import Core BinarySingleNaN.
From Verif Require Import Num NumOrd MathTypes Outcome Mesh SpecRound P_Round P_Round3 P_F32 P_KeyF P_MeshGeo Depth P_Depth P_Depth2 P_Depth3 P_NanF P_NanF2 Props_Depth.
Import ListNotations.
Local Open Scope R_scope.

(** finite floats of moderate size *)
Definition s_float (x : F64) : Prop := is_finite x = true /\ B2R (nf32 x) = B2R x /\ Rabs (B2R x) <= 10 ^ 30.
Lemma s_float_ok : forall x, s_float x -> ok (bpow radix2 123) x.
Proof.
  intros x [F [E B]]. assert (L : 10 ^ 30 <= bpow radix2 123) by (rewrite pow_IZR, <- IZR_Zpower by lia; apply IZR_le; vm_compute; discriminate).
  split; auto. split; [|lra]. rewrite <- E. destruct (nf32_spec x F) as [_ V].
  { assert (R : Rabs (rnd32 (B2R x)) <= bpow radix2 123) by (apply rnd32_bound; [apply gb; lia|lra]). eapply Rle_lt_trans; [exact R|]. apply bpow_lt. lia. }
  rewrite V. apply gen32_rnd.
Qed.

(** the exact condition for one row of a triangle: the row is a single point strictly between -1 and 0, with equal inverse depths at both ends; the invalid pixel is in the first column *)
Theorem C106_row : forall w y (xs xe ds de : F64) i ps, s_float xs -> s_float xe -> s_float ds -> s_float de -> row w y xs xe ds de i = Ret ps ->
  (forall p, In p ps -> is_nan (px_d p) = true -> px_x p = 0%Z) /\
  ((exists p, In p ps /\ is_nan (px_d p) = true) <-> (0 < w)%Z /\ B2R xs = B2R xe /\ -1 < B2R xs < 0 /\ B2R ds = B2R de).
Proof. intros w y xs xe ds de i ps A B C D H. apply (row_nan w y xs xe ds de i ps); auto; apply s_float_ok; auto. Qed.

(** rendering a mesh, whatever the camera, the mesh, the pose and the class derived from RenderResult: every pixel with a NaN depth handed to renderPixel is in the first column *)
Theorem C106_render : forall S (rp : S -> pixel F64 -> outcome S) stop (c : cam F64) (m : mesh F64) (pose : trans3 F64) cull w h s s', (h <= 16777214)%Z ->
  cam_render rp stop c m pose cull w h s = Ret s' -> exists ps, draw_pixels rp s ps = Ret s' /\ forall p, In p ps -> is_nan (px_d p) = true -> px_x p = 0%Z.
Proof. intros S rp stop c m pose cull w h s s' HH H. apply (render_nan S rp stop c m pose cull w h s s'); auto. lia. Qed.

(** rasterize leaves all other columns of the image free of NaN *)
Theorem C106_image : forall (c : cam F64) (m : mesh F64) (pose : trans3 F64) (img : list (list F64)) cols pm ptr tm s, (Z.of_nat (length img) <= 16777214)%Z ->
  rasterize c m pose img cols pm ptr tm = Ret s ->
  (forall x y r, (0 < x)%Z -> get2 img y x = Ret r -> is_nan r = false) ->
  forall x y r, (0 < x)%Z -> get2 (d_img s) y x = Ret r -> is_nan r = false.
Proof.
  intros c m pose img cols pm ptr tm s HH H CLEAN x y r X G. unfold rasterize in H. apply render_nan in H as [ps [D N]]; [|lia].
  destruct (is_nan r) eqn:NR; auto. destruct (pixels_nan ps _ _ D N x y r X G NR) as [r0 [G0 N0]]. cbn [drr_make d_img] in G0. rewrite (CLEAN x y r0 X G0) in N0. discriminate.
Qed.

(** and the first column does get them, for every triangle of that kind: a triangle in view, spanning several rows, whose topmost vertex is projected to a row of the image and less
    than one pixel left of it, yields a NaN depth in that row *)
Theorem C106_top : forall (c : cam F64) cull w h (a b d t : vec3 F64) i ps y1 y2 y3 yt,
  (forall v, In v [a; b; d] -> nltb (vz v) near_clip = true) ->
  drawTriangle c cull w h (a, b, d) i = Ret ps -> ps <> [] ->
  let P v := project_vert c v in
  toint (vy (P a)) = Some y1 -> toint (vy (P b)) = Some y2 -> toint (vy (P d)) = Some y3 ->
  In t [a; b; d] -> (forall v, In v [a; b; d] -> v = t \/ B2R (vy (P t)) < B2R (vy (P v))) -> toint (vy (P t)) = Some yt ->
  (0 <= yt < Z.max y1 (Z.max y2 y3))%Z -> -1 < B2R (vx (P t)) < 0 ->
  exists p, In p ps /\ px_x p = 0%Z /\ px_y p = yt /\ is_nan (px_d p) = true.
Proof.
  intros c cull w h a b d t i ps y1 y2 y3 yt V H NE P E1 E2 E3 IT LOW ET YR XR. subst P. cbv beta in *. unfold drawTriangle in H.
  apply (tri_top cull w h (project_vert c a) (project_vert c b) (project_vert c d) (project_vert c t) i ps y1 y2 y3 yt); auto; try (apply vert_okv; left; apply V; cbn; auto).
  - apply (in_map (project_vert c)) in IT. exact IT.
  - intros v I. change (In v (map (project_vert c) [a; b; d])) in I. apply in_map_iff in I as [u [<- I]]. destruct (LOW u I) as [->|L]; auto.
Qed.

(** ** the hypotheses are met: the triangle of C60, seen from the first vertex in its mesh *)
Definition c106_a : vec3 F64 := V3 (nlit (-1) 2) (nofZ 0) (nofZ (-1)).
Definition c106_b : vec3 F64 := V3 (nofZ 0) (nofZ (-4)) (nofZ (-1)).
Definition c106_d : vec3 F64 := V3 (nofZ 4) (nofZ (-2)) (nofZ (-1)).
Example C106_row_nonvacuous : let x := nlit (-1) 2 : F64 in let d := nofZ 1 : F64 in s_float x /\ s_float d /\ exists ps, row 4 0 x x d d 7 = Ret ps /\ length ps = 1%nat.
Proof.
  cbv zeta. assert (K : forall x : F64, is_finite x = true -> B2SF (nf32 x) = B2SF x -> Rabs (B2R x) <= 1 -> s_float x).
  { intros x F E B. split; auto. split; [|apply Rle_trans with 1; auto; rewrite pow_IZR; apply IZR_le; vm_compute; discriminate]. rewrite <- (SF2R_B2SF _ _ (nf32 x)), E, SF2R_B2SF. reflexivity. }
  split; [|split].
  - apply K; [reflexivity|vm_compute; reflexivity|]. assert (E : B2SF (nlit (-1) 2 : F64) = SpecFloat.S754_finite true 4503599627370496 (-53)) by (vm_compute; reflexivity).
    rewrite <- SF2R_B2SF, E. unfold SF2R, F2R. cbn [cond_Zopp Fnum Fexp]. change (bpow radix2 (-53)) with (/ IZR 9007199254740992). rewrite opp_IZR. rewrite Rabs_left; lra.
  - apply K; [reflexivity|vm_compute; reflexivity|]. destruct (ofZ_R 1 ltac:(lia)) as [_ E]. rewrite E, Rabs_R1. lra.
  - destruct (oret_ex _ (row 4 0 (nlit (-1) 2) (nlit (-1) 2) (nofZ 1) (nofZ 1) 7 : outcome (list (pixel F64))) (fun ps => Nat.eqb (length ps) 1)) as [ps [N C]]; [vm_compute; reflexivity|].
    exists ps. split; [exact N|]. apply Nat.eqb_eq. exact C.
Qed.
Example C106_nonvacuous :
  (exists s, rasterize c60_cam c60_mesh id_pose c60_img 4 [] None [] = Ret s /\ (Z.of_nat (length c60_img) <= 16777214)%Z /\
     (forall x y r, (0 < x)%Z -> get2 c60_img y x = Ret r -> is_nan r = false)) /\
  (exists ps, drawTriangle c60_cam true 4 4 (c106_a, c106_b, c106_d) 0 = Ret ps /\ (exists p, In p ps /\ px_x p = 0%Z /\ px_y p = 0%Z /\ is_nan (px_d p) = true)).
Proof.
  split.
  - destruct (oret_ex _ (rasterize c60_cam c60_mesh id_pose c60_img 4 [] None []) (fun s => true)) as [s [N C]]; [vm_compute; reflexivity|]. exists s. split; [exact N|].
    split; [unfold c60_img; cbn [repeat length]; lia|]. intros x y r X G. apply get2_inv in G as [_ [_ [l [A B]]]]. apply nth_error_In in A. unfold c60_img in A. apply repeat_spec in A. subst l.
    apply nth_error_In in B. apply repeat_spec in B. rewrite B. reflexivity.
  - destruct (oret_ex _ (drawTriangle c60_cam true 4 4 (c106_a, c106_b, c106_d) 0) (fun ps => negb (Nat.eqb (length ps) 0))) as [ps [N C]]; [vm_compute; reflexivity|]. exists ps. split; [exact N|].
    assert (FX : B2R (vx (project_vert c60_cam c106_a)) = - / 2).
    { assert (E : B2SF (vx (project_vert c60_cam c106_a)) = SpecFloat.S754_finite true 4503599627370496 (-53)) by (vm_compute; reflexivity). rewrite <- SF2R_B2SF, E. unfold SF2R, F2R. cbn [cond_Zopp Fnum Fexp]. change (bpow radix2 (-53)) with (/ IZR 9007199254740992). rewrite opp_IZR. lra. }
    assert (Y : forall v k, toint (vy (project_vert c60_cam v)) = Some k -> Rabs (B2R (vy (project_vert c60_cam v)) - IZR k) < 1).
    { intros v k K. apply toint_F in K as [_ [<- _]]. destruct (Rle_lt_dec 0 (B2R (vy (project_vert c60_cam v)))) as [Q|Q].
      - rewrite Ztrunc_floor by auto. pose proof (Zfloor_lb (B2R (vy (project_vert c60_cam v)))). pose proof (Zfloor_ub (B2R (vy (project_vert c60_cam v)))). apply Rabs_def1; lra.
      - rewrite Ztrunc_ceil by lra. pose proof (Zceil_ub (B2R (vy (project_vert c60_cam v)))). pose proof (Zceil_lb (B2R (vy (project_vert c60_cam v)))). apply Rabs_def1; lra. }
    assert (TA : toint (vy (project_vert c60_cam c106_a)) = Some 0%Z) by (vm_compute; reflexivity).
    assert (TB : toint (vy (project_vert c60_cam c106_b)) = Some 4%Z) by (vm_compute; reflexivity).
    assert (TD : toint (vy (project_vert c60_cam c106_d)) = Some 2%Z) by (vm_compute; reflexivity).
    pose proof (Rabs_def2 _ _ (Y _ _ TA)). pose proof (Rabs_def2 _ _ (Y _ _ TB)). pose proof (Rabs_def2 _ _ (Y _ _ TD)).
    apply (C106_top c60_cam true 4 4 c106_a c106_b c106_d c106_a 0 ps 0 4 2 0); auto; try lia; try lra.
    + intros v [<-|[<-|[<-|[]]]]; vm_compute; reflexivity.
    + intros ->. discriminate C.
    + cbn. auto.
    + intros v [<-|[<-|[<-|[]]]]; auto; right; lra.
Qed.
Print Assumptions C106_row.
Print Assumptions C106_render.
Print Assumptions C106_image.
Print Assumptions C106_top.
