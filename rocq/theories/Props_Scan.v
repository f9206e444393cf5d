(** * C96: from ranges to points *)
From Coq Require Import ZArith NArith List Bool Lia Reals Lra.
From Flocq Require Import Core.Raux.
From Verif Require Import Num NumOrd MathTypes Outcome Mesh Spec P_Tac P_Math P_Trig P_Mesh P_MeshGeo P_Float Laser SpecLaser P_Laser P_Laser2 P_Laser3 P_Laser4 P_Laser5 P_Composite Props_Mesh Props_Laser.
Import ListNotations.
Local Open Scope R_scope.

Lemma nth_combine {A B} : forall (xs : list A) (ys : list B) i, nth_error (combine xs ys) i =
  match nth_error xs i, nth_error ys i with Some x, Some y => Some (x, y) | _, _ => None end.
Proof.
  induction xs as [|x xs IH]; intros [|y ys] [|i]; cbn; auto; try (destruct (nth_error xs i); reflexivity). 
Qed.

(** C96: a list of ranges with one entry for every beam becomes a list of points, the i-th at the i-th range in the direction of
    beam i; a list of any other length is rejected. rangeToPoint gives the same points one by one, getRayDirection the directions *)
Theorem C96_points : forall ops (l : lrf R) ranges, lrf_run lrf_new ops = Ret l -> (0 < l_num l)%N -> l_amin l < l_amax l ->
  (length ranges <> N.to_nat (l_num l) -> rangesToPoints l ranges = None) /\
  (length ranges = N.to_nat (l_num l) -> exists pts, rangesToPoints l ranges = Some pts /\ length pts = length ranges /\
    forall i r, nth_error ranges i = Some r -> let a := s_beam (l_amin l) (l_amax l) (l_num l) i in
      nth_error pts i = Some (V3 (r * cos a) (r * sin a) 0) /\ rangeToPoint l r (N.of_nat i) = Ret (V3 (r * cos a) (r * sin a) 0) /\
      getRayDirection l (N.of_nat i) = Ret (V3 (cos a) (sin a) 0)).
Proof.
  intros ops l ranges H P A. destruct (C50_table ops l H P A) as [_ [LR [_ [TB _]]]]. unfold rangesToPoints. rewrite LR. split.
  - intros N. apply Nat.eqb_neq in N. rewrite N. reflexivity.
  - intros E. rewrite (proj2 (Nat.eqb_eq _ _) E). eexists. split; [reflexivity|]. split; [rewrite map_length, combine_length; lia|].
    intros i r NR. set (a := s_beam (l_amin l) (l_amax l) (l_num l) i). assert (I : (i < N.to_nat (l_num l))%nat) by (rewrite <- E; apply nth_error_Some; congruence).
    destruct (TB i I) as [_ NV]. fold a in NV. unfold rangeToPoint, getRayDirection. rewrite nth_error_map, nth_combine, NV, NR, Nat2N.id, NV. cbn.
    split; [f_equal|split; [f_equal|reflexivity]]; unfold vscale; cbn; unR; apply V3_eq; ring.
Qed.

(** C96: a point made from a positive range of beam i is found again at its beam: the first beam above it is i + 1 *)
Theorem C96_back : forall ops (l : lrf R) i r v, lrf_run lrf_new ops = Ret l -> s_config (l_amin l) (l_amax l) (l_num l) ->
  (i < l_num l)%N -> 0 < r -> rangeToPoint l r i = Ret v ->
  getAngleUpperIndexXY l (vx v) (vy v) = Ret (N.min (l_num l) (i + 1)) /\ vx v * vx v + vy v * vy v = r * r /\ vz v = 0.
Proof.
  intros ops l i r v H CF I R0 E. destruct CF as [N0 [[A1 A2] [A3 A4]]].
  destruct (C50_table ops l H ltac:(lia) A2) as [_ [LR [IC [TB _]]]]. destruct (TB (N.to_nat i) ltac:(lia)) as [_ NV].
  unfold rangeToPoint in E. rewrite NV in E. cbn [or_ub obind] in E. injection E as <-. set (a := s_beam (l_amin l) (l_amax l) (l_num l) (N.to_nat i)) in *.
  unfold vscale. cbn [vx vy vz]. unR. pose proof (incr_pos (l_amin l) (l_amax l) (l_num l) ltac:(lra)) as IP.
  assert (AB : - PI < a <= PI).
  { unfold a, s_beam. assert (0 <= INR (N.to_nat i)) by apply pos_INR. split; [pose proof (Rmult_le_pos _ _ H0 (Rlt_le _ _ IP)); lra|].
    assert (INR (N.to_nat i) * s_incr (l_amin l) (l_amax l) (l_num l) <= l_amax l - l_amin l); [|lra].
    unfold s_incr in *. destruct (N.leb_spec (l_num l) 1).
    - replace (N.to_nat i) with 0%nat by lia. cbn. lra.
    - assert (IZR 2 <= IZR (Z.of_N (l_num l))) by (apply IZR_le; lia). assert (INR (N.to_nat i) <= IZR (Z.of_N (l_num l)) - 1).
      { rewrite INR_IZR_INZ, <- minus_IZR. apply IZR_le. lia. }
      apply Rmult_le_reg_r with (IZR (Z.of_N (l_num l)) - 1); [lra|]. unfold Rdiv. rewrite <- Rmult_assoc, Rmult_assoc, Rinv_l, Rmult_1_r by lra.
      rewrite (Rmult_comm (INR _)). apply Rmult_le_compat_l; lra. }
  split; [|split].
  - assert (SA : s_angle (V2 (cos a * r) (sin a * r)) a). { split; auto. exists r. split; auto. f_equal; ring. }
    rewrite (C51_point l _ _ a SA). unfold getAngleUpperIndex. rewrite raw_R.
    + rewrite IC. replace ((a - l_amin l) / s_incr (l_amin l) (l_amax l) (l_num l)) with (IZR (Z.of_N i)).
      * rewrite Ztrunc_IZR. cbn [obind]. f_equal. f_equal. lia.
      * unfold a, s_beam. rewrite INR_IZR_INZ, N_nat_Z. field. lra.
    + rewrite IC. replace ((a - l_amin l) / s_incr (l_amin l) (l_amax l) (l_num l)) with (IZR (Z.of_N i)).
      * unfold in_int. split; [apply Rlt_le_trans with (IZR 0); [|apply IZR_le; lia]; cbn; lra|]. apply Rle_lt_trans with (IZR 2147483646); [apply IZR_le; lia|apply IZR_lt; lia].
      * unfold a, s_beam. rewrite INR_IZR_INZ, N_nat_Z. field. lra.
  - pose proof (sin2_cos2 a) as SC. unfold Rsqr in SC. replace (cos a * r * (cos a * r) + sin a * r * (sin a * r)) with ((sin a * sin a + cos a * cos a) * (r * r)) by ring. rewrite SC. ring.
  - ring.
Qed.

(** C96: scanning a mesh into empty ranges and converting the ranges gives points of the mesh, seen from its front, for all beams that
    see something; the other points are the sensor's position. Same conditions as C72_scan_partial *)
Theorem C96_surface : forall ops (l : lrf R) mops m pose tris, lrf_run lrf_new ops = Ret l -> s_config (l_amin l) (l_amax l) (l_num l) ->
  mesh_run mesh_new mops = Ret m -> soup_of m = Some tris -> rigid pose -> (forall t, In t tris -> s_fair_tri (l_amin l) (l_amax l) (l_num l) (mtri pose t)) ->
  exists res pts, lrf_render l m pose [] = Ret res /\ rangesToPoints l (rr_ranges res) = Some pts /\ length pts = N.to_nat (l_num l) /\
  forall p, In p pts -> p = V3 0 0 0 \/
    exists a b c, In (a, b, c) tris /\ in_triangle (s_moved pose a) (s_moved pose b) (s_moved pose c) p /\
      s_dot (s_normal (s_moved pose a) (s_moved pose b) (s_moved pose c)) p < 0.
Proof.
  intros ops l mops m pose tris L CF M S RG FT. destruct (C72_scan_partial ops l mops m pose [] tris L CF M S RG FT) as [res [E [LE SC]]].
  destruct CF as [N0 [[A1 A2] [A3 A4]]]. destruct (C96_points ops l (rr_ranges res) L ltac:(lia) A2) as [_ PT]. destruct (PT LE) as [pts [PE [PL PN]]].
  exists res, pts. split; auto. split; auto. split; [congruence|]. intros p IP. apply In_nth_error in IP as [i NI].
  assert (I : (i < N.to_nat (l_num l))%nat) by (rewrite <- LE, <- PL; apply nth_error_Some; congruence).
  destruct (SC i I) as [r' [NR [CASE _]]]. destruct (PN i r' NR) as [NP _]. rewrite NP in NI. injection NI as <-.
  destruct CASE as [Z|[a [b [c [IT FH]]]]].
  - left. replace r' with 0 by (rewrite Z; destruct i; reflexivity). apply V3_eq; ring.
  - right. exists a, b, c. split; auto. destruct FH as [_ [IN FR]]. auto.
Qed.

(** C96: polarTo3D gives the direction and distance of the point in the axes of the world, relative to the sensor's position: adding
    the sensor's position gives the point the pose moves (r cos a, r sin a, 0) to *)
Theorem C96_polar : forall (pose : trans3 R) a r,
  polarTo2D a r = V3 (r * cos a) (r * sin a) 0 /\
  vadd (polarTo3D pose a r) (MathTypes.tt pose) = s_moved pose (V3 (r * cos a) (r * sin a) 0) /\
  (rigid pose -> s_norm (polarTo3D pose a r) = Rabs r).
Proof.
  intros pose a r. assert (P2 : polarTo2D a r = V3 (r * cos a) (r * sin a) 0) by (unfold polarTo2D, vscale; cbn; unR; apply V3_eq; ring).
  split; [exact P2|]. split.
  - unfold polarTo3D. rewrite P2. unfold s_moved, vadd, m3mulv. cbn. apply V3_eq; reflexivity.
  - intros RG. unfold polarTo3D. rewrite P2. rewrite norm_rot by exact RG. unfold s_norm, s_dot. cbn [vx vy vz].
    pose proof (sin2_cos2 a) as SC. unfold Rsqr in SC. replace (r * cos a * (r * cos a) + r * sin a * (r * sin a) + 0 * 0) with ((sin a * sin a + cos a * cos a) * (r * r)) by ring.
    rewrite SC, Rmult_1_l. apply sqrt_Rsqr_abs.
Qed.

Section Window.
  Context {T : Type} {NT : Num T} {TR : Trig T}.
  (** drawing segments one after the other *)
  Fixpoint draw_all (l : lrf T) (qs : list (vec2 T * vec2 T)) (res : rr T) : outcome (rr T) :=
    match qs with [] => Ret res | (p, q) :: r => obind (renderLine l p q res) (draw_all l r) end.

  Lemma part_other : forall (l : lrf T) p1 s is_ ranges ranges' i, render_part l p1 s is_ ranges = Ret ranges' -> ~ In i is_ ->
    length ranges' = length ranges /\ nth_error ranges' i = nth_error ranges i.
  Proof.
    intros l p1 s. induction is_ as [|j is_ IH]; intros ranges ranges' i H N; cbn [render_part] in H; [injection H as <-; auto|].
    destruct (nth_error (l_rays l) j) as [ray|]; [|discriminate]. cbn [or_ub obind] in H.
    assert (SET : forall (xs ys : list T) k d, or_ub (set_nth xs k d) = Ret ys -> length ys = length xs /\ (k <> i -> nth_error ys i = nth_error xs i)).
    { clear. intros xs. intros ys k d E. destruct (set_nth xs k d) as [zs|] eqn:Z; [|discriminate]. injection E as <-. revert i k zs Z.
      induction xs as [|x xs IH]; intros i k zs Z; cbn in Z; [discriminate|]. destruct k as [|k].
      - injection Z as <-. split; [reflexivity|]. intros K. destruct i; [congruence|reflexivity].
      - destruct (set_nth xs k d) as [ws|] eqn:W; [|discriminate]. injection Z as <-. destruct i as [|i].
        + destruct (IH 0%nat k ws W) as [LL _]. cbn. split; [lia|reflexivity].
        + destruct (IH i k ws W) as [LL NN]. cbn. split; [lia|]. intros K. apply NN. lia. }
    match type of H with obind ?c _ = _ => destruct c as [rs| | |] eqn:E end; try discriminate. cbn [obind] in H.
    assert (ST : length rs = length ranges /\ nth_error rs i = nth_error ranges i).
    { destruct (nltb _ _) in E; [|injection E as <-; auto]. unfold renderPoint in E. destruct (nth_error ranges j) as [r|]; [|discriminate]. cbn [or_ub obind] in E.
      destruct (_ || _)%bool; [|injection E as <-; auto]. destruct (SET _ _ _ _ E) as [LL NN]. split; auto. apply NN. intros ->. apply N. left; auto. }
    destruct (IH rs ranges' i H) as [LL NN]; [intros X; apply N; right; auto|]. destruct ST as [S1 S2]. split; congruence.
  Qed.

  Lemma line_window : forall (l : lrf T) p q res res', renderLine l p q res = Ret res' -> (rr_max res <= l_num l)%N ->
    (rr_max res' <= l_num l)%N /\ (rr_min res' <= rr_min res)%N /\ (rr_max res <= rr_max res')%N /\ length (rr_ranges res') = length (rr_ranges res) /\
    forall i, (i < N.to_nat (rr_min res') \/ N.to_nat (rr_max res') <= i)%nat -> nth_error (rr_ranges res') i = nth_error (rr_ranges res) i.
  Proof.
    intros l p q res res' H MX. unfold renderLine in H.
    assert (SAME : Ret res = Ret res' -> (rr_max res' <= l_num l)%N /\ (rr_min res' <= rr_min res)%N /\ (rr_max res <= rr_max res')%N /\ length (rr_ranges res') = length (rr_ranges res) /\
      forall i, (i < N.to_nat (rr_min res') \/ N.to_nat (rr_max res') <= i)%nat -> nth_error (rr_ranges res') i = nth_error (rr_ranges res) i).
    { intros E. injection E as <-. repeat split; auto; lia. }
    destruct (_ || _)%bool in H; [auto|]. destruct (_ && _)%bool in H; [auto|].
    destruct (angleRawXY l (v2x p) (v2y p)) as [i1| | |]; try discriminate. destruct (angleRawXY l (v2x q) (v2y q)) as [i2| | |]; try discriminate. cbn [obind] in H.
    destruct (negb _) in H; [discriminate|]. destruct (Z.ltb (Z.max i1 i2 - Z.min i1 i2) _) in H.
    - destruct (Z.ltb i2 i1) in H; [auto|]. destruct (Z.leb _ _) in H; [auto|]. set (a := Z.to_N (Z.max 0 (Z.min i1 i2))) in *. set (b := N.min (l_num l) (Z.to_N (Z.max 0 (Z.max i1 i2)))) in *.
      destruct (render_part _ _ _ _ _) as [rs| | |] eqn:E; try discriminate. cbn [obind] in H. injection H as <-. cbn [rr_min rr_max rr_ranges].
      split; [lia|]. split; [lia|]. split; [lia|]. split.
      + destruct (part_other _ _ _ _ _ _ (length (rr_ranges res) + N.to_nat b) E) as [LL _]; [unfold urange; rewrite in_seq; lia|exact LL].
      + intros i I. apply (part_other _ _ _ _ _ _ i E). unfold urange. rewrite in_seq. lia.
    - destruct (Z.ltb i1 i2) in H; [auto|]. set (a := Z.to_N (Z.max 0 (Z.max i1 i2))) in *. set (b := N.min (l_num l) (Z.to_N (Z.max 0 (Z.min i1 i2)))) in *.
      destruct (render_part _ _ _ _ (rr_ranges res)) as [rs| | |] eqn:E; try discriminate. cbn [obind] in H.
      destruct (render_part _ _ _ _ rs) as [rs'| | |] eqn:E'; try discriminate. cbn [obind] in H. injection H as <-. cbn [rr_min rr_max rr_ranges].
      split; [lia|]. split; [lia|]. split; [lia|].
      assert (F : forall i, (N.to_nat (l_num l) <= i)%nat -> length rs' = length (rr_ranges res) /\ nth_error rs' i = nth_error (rr_ranges res) i).
      { intros i I. destruct (part_other _ _ _ _ _ _ i E) as [L1 N1]; [unfold urange; rewrite in_seq; lia|].
        destruct (part_other _ _ _ _ _ _ i E') as [L2 N2]; [unfold urange; rewrite in_seq; lia|]. split; congruence. }
      split; [apply (F (N.to_nat (l_num l))); lia|]. intros i [I|I]; [lia|]. apply F. exact I.
  Qed.

  (** C96: after any number of segments, min_i and max_i of the result enclose all beams whose range has changed *)
  Theorem C96_window : forall (l : lrf T) qs ranges res, draw_all l qs (rr_make ranges) = Ret res ->
    length (rr_ranges res) = length ranges /\ (rr_max res <= l_num l)%N /\
    (ranges <> [] -> (N.of_nat (length ranges) < 4294967296)%N -> (N.to_nat (rr_min res) < length ranges)%nat) /\
    forall i, nth_error (rr_ranges res) i <> nth_error ranges i -> (N.to_nat (rr_min res) <= i < N.to_nat (rr_max res))%nat.
  Proof.
    intros l qs ranges res H.
    assert (G : forall qs r0 r1, draw_all l qs r0 = Ret r1 -> (rr_max r0 <= l_num l)%N ->
      (rr_max r1 <= l_num l)%N /\ (rr_min r1 <= rr_min r0)%N /\ (rr_max r0 <= rr_max r1)%N /\ length (rr_ranges r1) = length (rr_ranges r0) /\
      forall i, (i < N.to_nat (rr_min r1) \/ N.to_nat (rr_max r1) <= i)%nat -> nth_error (rr_ranges r1) i = nth_error (rr_ranges r0) i).
    { clear. induction qs as [|[p q] qs IH]; intros r0 r1 H MX; cbn [draw_all] in H; [injection H as <-; repeat split; auto; lia|].
      destruct (renderLine l p q r0) as [r| | |] eqn:E; try discriminate. cbn [obind] in H.
      destruct (line_window _ _ _ _ _ E MX) as [A [B [C [D F]]]]. destruct (IH _ _ H A) as [A' [B' [C' [D' F']]]].
      repeat split; try lia. intros i I. rewrite F' by exact I. apply F. lia. }
    destruct (G qs (rr_make ranges) res H) as [A [B [_ [D F]]]]; [cbn; lia|]. cbn [rr_make rr_ranges rr_min] in B, D, F. split; auto. split; auto. split.
    { intros NE SM. destruct ranges as [|r rs]; [congruence|]. revert B. unfold u32. replace (N.of_nat (length (r :: rs)) + 4294967295)%N with (N.of_nat (length rs) + 1 * 4294967296)%N by (cbn [length]; lia). rewrite N.mod_add, N.mod_small by (cbn [length] in SM; lia). cbn [length]. lia. }
    intros i NE. destruct (Nat.lt_ge_cases i (N.to_nat (rr_min res))); [exfalso; apply NE; apply F; auto|].
    destruct (Nat.lt_ge_cases i (N.to_nat (rr_max res))); [lia|exfalso; apply NE; apply F; auto].
  Qed.
End Window.

(** the sensor and mesh of C72_nonvacuous meet the hypotheses *)
Example C96_nonvacuous : exists ops (l : lrf R) mops m pose tris, lrf_run lrf_new ops = Ret l /\ s_config (l_amin l) (l_amax l) (l_num l) /\
  mesh_run mesh_new mops = Ret m /\ soup_of m = Some tris /\ rigid pose /\ (forall t, In t tris -> s_fair_tri (l_amin l) (l_amax l) (l_num l) (mtri pose t)) /\
  exists res r, lrf_render l m pose [] = Ret res /\ nth_error (rr_ranges res) 2 = Some r /\ 0 < r <= 10.
Proof.
  destruct C72_nonvacuous as [ops [l [mops [m [pose [a [b [c [L [CF [M [S [RG [FT [I [RM [FH OT]]]]]]]]]]]]]]]]].
  assert (FT' : forall t, In t [(a, b, c)] -> s_fair_tri (l_amin l) (l_amax l) (l_num l) (mtri pose t)) by (intros t [<-|[]]; exact FT).
  exists ops, l, mops, m, pose, [(a, b, c)]. do 6 (split; [assumption|]).
  destruct (C72_scan_partial ops l mops m pose [] _ L CF M S RG FT') as [res [E [LE SC]]]. destruct (SC 2%nat I) as [r [NR [CASE [HIT _]]]].
  destruct (HIT a b c 10 (or_introl eq_refl) FH OT RM) as [NZ LE10]. exists res, r. split; auto. split; auto. split; auto.
  destruct CASE as [Z|[a' [b' [c' [_ [R0 _]]]]]]; [cbn in Z; congruence|exact R0].
Qed.
(** ranges of 1, 2 and 3 metres at -1, 0 and 1 radians *)
Example C96_nonvacuous2 : exists (l : lrf R) pts, lrf_run lrf_new [LBeams 3; LAngles (-1) 1] = Ret l /\ rangesToPoints l [1; 2; 3] = Some pts /\ nth_error pts 1 = Some (V3 2 0 0).
Proof.
  destruct (configured (-1) 1 3) as [l [E [A [B [C _]]]]]; try lra; try lia.
  { unfold s_incr. cbn. pose proof PI_4. lra. }
  destruct (C96_points _ l [1; 2; 3] E) as [_ P]; [rewrite C; lia|rewrite A, B; lra|]. destruct P as [pts [PE [_ PN]]]; [rewrite C; reflexivity|].
  exists l, pts. split; auto. split; auto. destruct (PN 1%nat 2 eq_refl) as [NP _]. rewrite NP. f_equal.
  assert (BE : s_beam (l_amin l) (l_amax l) (l_num l) 1 = 0) by (rewrite A, B, C; unfold s_beam, s_incr; cbn; lra). rewrite BE, cos_0, sin_0. apply V3_eq; ring.
Qed.
Print Assumptions C96_points.
Print Assumptions C96_back.
Print Assumptions C96_surface.
Print Assumptions C96_polar.
Print Assumptions C96_window.
