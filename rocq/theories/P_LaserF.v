(** * The laser range finder on doubles *)
From Coq Require Import ZArith NArith List Bool Lia Reals Lra.
From Flocq Require Import Core BinarySingleNaN.
From Verif Require Import Num NumOrd MathTypes Outcome Mesh Spec SpecRound Laser SpecLaser Libm SpecLibm SpecLaserF
  P_Tac P_Math P_Trig P_Mesh P_MeshGeo P_Round P_OctF P_RayF P_QuatF P_KeyF P_F32 P_Libm P_Laser P_Laser2 P_Laser3.
Import ListNotations.
Local Open Scope R_scope.
Local Notation fin := (is_finite (prec := 53) (emax := 1024)).

(** ** any scalar type: the tables of every configuration history, the beams a line visits *)
Section Any.
  Context {T : Type} {NT : Num T} {TR : Trig T}.
  Definition incr_of (l : lrf T) : T := ndiv (nsub (l_amax l) (l_amin l)) (nofZ (Z.of_N (N.max (u32 (l_num l + 4294967295)) 1))).
  Definition tableT (l : lrf T) : Prop :=
    l_incr l = incr_of l /\ l_angles l = beam_angles (N.to_nat (l_num l)) (l_amin l) (l_incr l) /\
    l_rays l = map (fun a => polarTo2D a n1) (l_angles l) /\ touint (ndiv npi (l_incr l)) = Some (l_half l).
  Definition invT (l : lrf T) : Prop := (l_num l < 4294967296)%N /\ ((0 < l_num l)%N -> nltb n0 (nsub (l_amax l) (l_amin l)) = true -> tableT l).
  Lemma calcT : forall l l' : lrf T, calculateRays l = Ret l' -> l_amin l' = l_amin l /\ l_amax l' = l_amax l /\ l_num l' = l_num l /\ tableT l'.
  Proof.
    intros l l' H. unfold calculateRays in H. fold (incr_of l) in H. destruct (touint (ndiv npi (incr_of l))) as [h|] eqn:E; [|discriminate]. cbn [or_ub obind] in H. injection H as <-.
    unfold tableT. cbn. repeat split; auto.
  Qed.
  Lemma stepT : forall l o l', invT l -> lrf_step l o = Ret l' -> invT l'.
  Proof.
    intros l o l' [NB I] H. destruct o as [mn mx|n|mn mx]; cbn [lrf_step] in H.
    - unfold setAngleLimits in H. cbn [l_num l_amax l_amin] in H. destruct (N.ltb_spec 0 (l_num l)); cbn [andb] in H.
      + destruct (nltb n0 (nsub mx mn)) eqn:B.
        * apply calcT in H. cbn [l_num l_amax l_amin] in H. destruct H as [E1 [E2 [E3 E4]]]. split; [lia|auto].
        * injection H as <-. split; [cbn; auto|]. cbn. intros; congruence.
      + injection H as <-. split; cbn; auto. intros; lia.
    - unfold setNumBeams in H. assert (U : (u32 n < 4294967296)%N) by (unfold u32; apply N.mod_lt; lia). cbn [l_num l_amax l_amin] in H. destruct (N.ltb_spec 0 (u32 n)); cbn [andb] in H.
      + destruct (nltb n0 (nsub (l_amax l) (l_amin l))) eqn:B.
        * apply calcT in H. cbn [l_num l_amax l_amin] in H. destruct H as [E1 [E2 [E3 E4]]]. split; [lia|auto].
        * injection H as <-. split; [cbn; auto|]. cbn. intros; congruence.
      + injection H as <-. split; cbn; auto. intros; lia.
    - injection H as <-. split; cbn; auto.
  Qed.
  Lemma runT : forall ops l l', invT l -> lrf_run l ops = Ret l' -> invT l'.
  Proof.
    induction ops as [|o ops IH]; intros l l' I H; [injection H as <-; auto|]. cbn [lrf_run] in H. destruct (lrf_step l o) as [l1| | |] eqn:E; try discriminate.
    cbn [obind] in H. eapply IH; [|exact H]. eapply stepT; eauto.
  Qed.
  Lemma newT : invT (lrf_new : lrf T). Proof. split; cbn; [lia|intros; lia]. Qed.

  Definition line_beams (num half : N) (u v : Z) : list nat :=
    if Z.ltb (Z.max u v - Z.min u v) (s32 half) then
      if Z.ltb v u then [] else if Z.leb (s32 num) (Z.min u v) then [] else urange (Z.to_N (Z.max 0 (Z.min u v))) (N.min num (Z.to_N (Z.max 0 (Z.max u v))))
    else if Z.ltb u v then [] else urange (Z.to_N (Z.max 0 (Z.max u v))) num ++ urange 0 (N.min num (Z.to_N (Z.max 0 (Z.min u v)))).
  Lemma part_appT : forall (l : lrf T) p s is1 is2 ranges, render_part l p s (is1 ++ is2) ranges = obind (render_part l p s is1 ranges) (render_part l p s is2).
  Proof.
    intros l p s is1 is2. induction is1 as [|i is1 IH]; intros ranges; [reflexivity|]. cbn [app render_part]. destruct (nth_error (l_rays l) i); cbn [or_ub obind]; auto.
    destruct (if nltb _ _ then _ else _); cbn [obind]; auto.
  Qed.
  Lemma line_flow : forall (l : lrf T) p q res u v,
    ((neqb (v2x p) n0 && neqb (v2y p) n0) || (neqb (v2x q) n0 && neqb (v2y q) n0) || neqb (v2length2 (v2sub q p)) n0)%bool = false ->
    nltb n0 (l_rmax l) = false -> angleRawXY l (v2x p) (v2y p) = Ret u -> angleRawXY l (v2x q) (v2y q) = Ret v -> (Z.max u v - Z.min u v <= 2147483647)%Z ->
    exists lo hi, renderLine l p q res = obind (render_part l p (v2sub q p) (line_beams (l_num l) (l_half l) u v) (rr_ranges res)) (fun r => Ret (RR lo hi r)).
  Proof.
    intros l p q res u v Z RM U V D. unfold renderLine. rewrite Z, RM, U, V. cbn [andb obind]. unfold line_beams.
    assert (O : negb (Z.leb (Z.max u v - Z.min u v) 2147483647) = false) by (apply negb_false_iff, Z.leb_le; exact D). rewrite O.
    assert (E : Ret res = Ret (RR (rr_min res) (rr_max res) (rr_ranges res))) by (destruct res; reflexivity).
    destruct (Z.ltb (Z.max u v - Z.min u v) (s32 (l_half l))).
    - destruct (Z.ltb v u); [exists (rr_min res), (rr_max res); exact E|]. destruct (Z.leb (s32 (l_num l)) (Z.min u v)); [exists (rr_min res), (rr_max res); exact E|].
      do 2 eexists. reflexivity.
    - destruct (Z.ltb u v); [exists (rr_min res), (rr_max res); exact E|]. do 2 eexists. rewrite part_appT. destruct (render_part l p (v2sub q p) _ (rr_ranges res)); reflexivity.
  Qed.
  Lemma part_T : forall (l : lrf T) p s is_ ranges, NoDup is_ ->
    (forall i, In i is_ -> (i < length ranges)%nat /\ exists ray, nth_error (l_rays l) i = Some ray /\ nltb n0 (ndiv (v2cross p s) (v2cross (vproj2 ray) s)) = true) ->
    exists ranges', render_part l p s is_ ranges = Ret ranges' /\ length ranges' = length ranges /\
      (forall i, ~ In i is_ -> nth_error ranges' i = nth_error ranges i) /\
      (forall i ray r, In i is_ -> nth_error (l_rays l) i = Some ray -> nth_error ranges i = Some r ->
         let D := nf32 (ndiv (v2cross p s) (v2cross (vproj2 ray) s)) in nth_error ranges' i = Some (if (neqb r n0 || nltb D r)%bool then D else r)).
  Proof.
    intros l p s is_. induction is_ as [|i is_ IH]; intros ranges ND H.
    - exists ranges. repeat split; auto. intros i ray r [].
    - inversion ND as [|? ? NI ND']. subst. cbn [render_part]. destruct (H i) as [LI [ray [RA G]]]; [left; auto|]. rewrite RA. cbn [or_ub obind]. rewrite G.
      destruct (nth_error ranges i) as [r|] eqn:NR; [|apply nth_error_None in NR; lia].
      destruct (point_spec ranges i (nf32 (ndiv (v2cross p s) (v2cross (vproj2 ray) s))) r NR) as [rs [E [LN [K O]]]]. rewrite E. cbn [obind].
      destruct (IH rs ND') as [ranges' [E' [LN' [O' K']]]]. { intros j J. rewrite LN. apply H. right; auto. }
      exists ranges'. split; auto. split; [lia|]. split.
      + intros j NJ. rewrite O' by (intros J; apply NJ; right; auto). apply O. intros ->. apply NJ. left; auto.
      + intros j ray' r' [<-|J] RJ RR'.
        * rewrite O' by auto. assert (ray' = ray) by congruence. assert (r' = r) by congruence. subst. exact K.
        * apply K'; auto. rewrite O; auto. intros ->. contradiction.
  Qed.
End Any.

(** ** the beams between two directions; half is any integer close to a half circle *)
Lemma beams_spec : forall amin amax num half p q a b, let I := s_incr amin amax num in (0 < num < 2147483648)%N -> - PI < amin < amax -> amax <= PI -> / 1000000 <= I ->
  s_angle p a -> s_angle q b -> s_clear amin amax num a -> s_clear amin amax num b -> 4 * I <= Rabs (Rabs (b - a) - PI) ->
  PI / I - 2 < IZR (Z.of_N half) <= PI / I + 1 ->
  let u := (Ztrunc ((a - amin) / I) + 1)%Z in let v := (Ztrunc ((b - amin) / I) + 1)%Z in
  (Z.max u v - Z.min u v <= 2147483647)%Z /\ NoDup (line_beams num half u v) /\
  (forall i, In i (line_beams num half u v) <-> (i < N.to_nat num)%nat /\ exists d, s_lit (s_beam amin amax num i) p q d).
Proof.
  intros amin amax num half p q a b I NB AM AX IL AP AQ DA DB MG HF u v. unfold s_clear in DA, DB. fold I in DA, DB.
  destruct (angle_s_ang p a AP) as [EA PZ]. destruct (angle_s_ang q b AQ) as [EB QZ].
  assert (IP : 0 < I) by lra. assert (BI : forall i, s_beam amin amax num i = amin + INR i * I) by reflexivity.
  destruct AP as [PR _]. destruct AQ as [QR _]. pose proof PI_4 as P4. pose proof PI_RGT_0 as PP.
  set (x := (a - amin) / I) in *. set (y := (b - amin) / I) in *.
  assert (Ea : a = amin + x * I) by (unfold x; field; lra). assert (Eb : b = amin + y * I) by (unfold y; field; lra).
  assert (SA : forall k, (u <= Z.of_nat k)%Z <-> a < s_beam amin amax num k) by (intros k; rewrite BI; apply raw_spec; auto).
  assert (SB : forall k, (v <= Z.of_nat k)%Z <-> b < s_beam amin amax num k) by (intros k; rewrite BI; apply raw_spec; auto).
  pose proof (raw_close x) as CX. pose proof (raw_close y) as CY. fold u in CX. fold v in CY.
  set (h := PI / I) in *. assert (HI : h * I = PI) by (unfold h; field; lra).
  assert (HU : h <= 4000000). { apply Rmult_le_reg_r with I; auto. rewrite HI. lra. }
  assert (HB : (Z.of_N half < 2147483648)%Z) by (apply lt_IZR; lra).
  assert (S1 : s32 half = Z.of_N half) by (unfold s32; destruct (N.ltb_spec half 2147483648); [reflexivity|lia]).
  assert (S2 : s32 num = Z.of_N num) by (unfold s32; destruct (N.ltb_spec num 2147483648); [reflexivity|lia]).
  assert (UV : x - y - 2 <= IZR u - IZR v <= x - y + 2) by lra. assert (XY : (x - y) * I = a - b) by lra.
  assert (XB2 : - 8000000 <= x - y <= 8000000) by (split; apply Rmult_le_reg_r with I; auto; rewrite XY; lra).
  assert (OV : (Z.max u v - Z.min u v <= 2147483647)%Z).
  { assert (u - v <= 2147483642)%Z by (apply le_IZR; rewrite minus_IZR; lra). assert (v - u <= 2147483642)%Z by (apply le_IZR; rewrite minus_IZR; lra). lia. }
  split; [exact OV|]. unfold line_beams. rewrite S1, S2.
  assert (BR : forall i, (i < N.to_nat num)%nat -> - PI < s_beam amin amax num i <= PI).
  { intros i H. assert (0 <= INR i * I <= amax - amin).
    { split; [apply Rmult_le_pos; [apply pos_INR|lra]|]. unfold I, s_incr. destruct (N.leb_spec num 1).
      - assert (i = 0%nat) by lia. subst. cbn. lra.
      - assert (1 <= IZR (Z.of_N num) - 1). { assert (IZR 2 <= IZR (Z.of_N num)) by (apply IZR_le; lia). lra. }
        apply Rmult_le_reg_r with (IZR (Z.of_N num) - 1); [lra|]. replace (INR i * ((amax - amin) / (IZR (Z.of_N num) - 1)) * (IZR (Z.of_N num) - 1)) with (INR i * (amax - amin)) by (field; lra).
        rewrite (Rmult_comm (INR i)). apply Rmult_le_compat_l; [lra|]. rewrite INR_IZR_INZ. rewrite <- minus_IZR. apply IZR_le. lia. }
    rewrite BI. lra. }
  assert (EMP : (forall i d, (i < N.to_nat num)%nat -> ~ s_lit (s_beam amin amax num i) p q d) -> NoDup (@nil nat) /\ forall i, In i [] <-> (i < N.to_nat num)%nat /\ exists d, s_lit (s_beam amin amax num i) p q d).
  { intros H. split; [constructor|]. intros i. split; [intros []|intros [J [d L]]; exfalso; exact (H i d J L)]. }
  destruct (Rle_or_lt (Rabs (b - a)) (PI - 4 * I)) as [NEAR|FAR].
  - assert (AB : Rabs (b - a) < PI) by lra. pose proof (Rabs_def2 _ _ AB) as AB2.
    assert (XY3 : - (h - 4) <= x - y <= h - 4).
    { assert (Q : Rabs (a - b) <= PI - 4 * I) by (rewrite Rabs_minus_sym; auto). apply Rabs_le_inv in Q. split; apply Rmult_le_reg_r with I; auto; rewrite XY.
      - replace (- (h - 4) * I) with (- (h * I) + 4 * I) by ring. lra.
      - replace ((h - 4) * I) with (h * I - 4 * I) by ring. lra. }
    assert (LT : Z.ltb (Z.max u v - Z.min u v) (Z.of_N half) = true).
    { apply Z.ltb_lt. assert (u - v < Z.of_N half)%Z by (apply lt_IZR; rewrite minus_IZR; lra). assert (v - u < Z.of_N half)%Z by (apply lt_IZR; rewrite minus_IZR; lra). lia. }
    rewrite LT. destruct (Rle_or_lt a b) as [LE|GT].
    + assert (UVZ : (u <= v)%Z). { unfold u, v. apply Zplus_le_compat_r, Ztrunc_le. apply Rmult_le_reg_r with I; auto. lra. }
      destruct (Z.ltb_spec v u); [lia|].
      assert (LIT : forall i, (i < N.to_nat num)%nat -> (exists d, s_lit (s_beam amin amax num i) p q d) <-> (u <= Z.of_nat i < v)%Z).
      { intros i J. rewrite lit_near by (auto; rewrite EA, EB; auto). rewrite EA, EB, SA. split; intros [H1 H2]; split; auto.
        - apply Z.lt_nge. rewrite SB. lra.
        - apply Z.lt_nge in H2. rewrite SB in H2. lra. }
      destruct (Z.leb_spec (Z.of_N num) (Z.min u v)) as [BL|BL].
      * apply EMP. intros i d J L. pose proof (proj1 (LIT i J) (ex_intro _ d L)). lia.
      * split; [apply urange_nodup|]. intros i. rewrite urange_in. split.
        -- intros H0. assert (J : (i < N.to_nat num)%nat) by lia. split; auto. apply LIT; auto. lia.
        -- intros [J L]. apply LIT in L; auto. lia.
    + assert (UVZ : (v <= u)%Z). { unfold u, v. apply Zplus_le_compat_r, Ztrunc_le. apply Rmult_le_reg_r with I; auto. lra. }
      assert (NL : forall i d, (i < N.to_nat num)%nat -> ~ s_lit (s_beam amin amax num i) p q d).
      { intros i d _. apply lit_none; auto. rewrite EA, EB. right. lra. }
      destruct (Z.ltb_spec v u); [apply EMP; auto|]. destruct (Z.leb_spec (Z.of_N num) (Z.min u v)) as [BL|BL]; [apply EMP; auto|].
      split; [apply urange_nodup|]. intros i. rewrite urange_in. split; [lia|]. intros [J [d L]]. exfalso. apply (NL i d J L).
  - assert (FAR2 : PI + 4 * I <= Rabs (b - a)) by (unfold Rabs in MG at 1; destruct (Rcase_abs (Rabs (b - a) - PI)); lra).
    assert (H0 : 0 <= h) by (apply Rmult_le_reg_r with I; lra).
    assert (NLT : forall d : R, d = IZR u - IZR v \/ d = IZR v - IZR u -> h + 1 <= d -> Z.ltb (Z.max u v - Z.min u v) (Z.of_N half) = false).
    { intros d E G. apply Z.ltb_ge. apply le_IZR. destruct E as [-> | ->].
      - assert (v <= u)%Z by (apply le_IZR; lra). rewrite Z.max_l, Z.min_r by auto. rewrite minus_IZR. lra.
      - assert (u <= v)%Z by (apply le_IZR; lra). rewrite Z.max_r, Z.min_l by auto. rewrite minus_IZR. lra. }
    unfold Rabs in FAR2. destruct (Rcase_abs (b - a)) as [NG|PG].
    + assert (XY3 : h + 4 <= x - y). { apply Rmult_le_reg_r with I; auto. rewrite XY. replace ((h + 4) * I) with (h * I + 4 * I) by ring. lra. }
      rewrite (NLT (IZR u - IZR v)) by (auto; lra).
      assert (UVZ : (v <= u)%Z). { unfold u, v. apply Zplus_le_compat_r, Ztrunc_le. apply Rmult_le_reg_r with I; auto. lra. }
      destruct (Z.ltb_spec u v); [lia|].
      assert (LIT : forall i, (i < N.to_nat num)%nat -> (exists d, s_lit (s_beam amin amax num i) p q d) <-> (u <= Z.of_nat i)%Z \/ (Z.of_nat i < v)%Z).
      { intros i J. rewrite lit_wrap by (auto; rewrite EA, EB; lra). rewrite EA, EB, SA. rewrite Z.lt_nge, SB. split; intros [H1|H1]; auto; right; lra. }
      split.
      * apply NoDup_app_disj; try apply urange_nodup. intros i. rewrite !urange_in. lia.
      * intros i. rewrite in_app_iff. rewrite !urange_in. split.
        -- intros H1. assert (J : (i < N.to_nat num)%nat) by lia. split; auto. apply LIT; auto. lia.
        -- intros [J L]. apply LIT in L; auto. lia.
    + assert (XY3 : x - y <= - (h + 4)). { apply Rmult_le_reg_r with I; auto. rewrite XY. replace (- (h + 4) * I) with (- (h * I) - 4 * I) by ring. lra. }
      rewrite (NLT (IZR v - IZR u)) by (auto; lra). assert (u < v)%Z by (apply lt_IZR; lra).
      destruct (Z.ltb_spec u v); [|lia]. apply EMP. intros i d _. apply lit_none; auto. rewrite EA, EB. left. lra.
Qed.
