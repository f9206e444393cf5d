(** Lemmas about the laser range finder: drawing one segment *)
From Coq Require Import ZArith NArith List Bool Lia Reals Lra.
From Flocq Require Import Core.Raux.
From Verif Require Import Num NumOrd MathTypes Outcome Mesh Spec P_Tac P_Math P_Trig P_Mesh P_MeshGeo Laser SpecLaser P_Laser P_Laser2.
Import ListNotations.
Local Open Scope R_scope.

Lemma angle_s_ang : forall p a, s_angle p a -> s_ang p = a /\ p <> V2 0 0.
Proof.
  intros p a [A [r [P ->]]]. split.
  - unfold s_ang. cbn [v2x v2y]. apply atan2_polar; auto.
  - intros E. injection E as E1 E2. pose proof (sin2_cos2 a) as S. unfold Rsqr in S.
    assert (cos a = 0) by (apply Rmult_eq_reg_l with r; lra). assert (sin a = 0) by (apply Rmult_eq_reg_l with r; lra). rewrite H, H0 in S. lra.
Qed.
Lemma part_app : forall (l : lrf R) p s is1 is2 ranges, render_part l p s (is1 ++ is2) ranges = obind (render_part l p s is1 ranges) (render_part l p s is2).
Proof.
  intros l p s is1. induction is1 as [|i is1 IH]; intros is2 ranges; [reflexivity|]. cbn [app render_part].
  destruct (or_ub (nth_error (l_rays l) i)) as [ray| | |]; cbn [obind]; auto.
  match goal with |- obind ?x _ = _ => destruct x as [r'| | |]; cbn [obind]; auto end.
Qed.
Lemma ray_at : forall (l : lrf R) i, table_ok l -> (i < N.to_nat (l_num l))%nat ->
  nth_error (l_rays l) i = Some (V3 (cos (s_beam (l_amin l) (l_amax l) (l_num l) i)) (sin (s_beam (l_amin l) (l_amax l) (l_num l) i)) 0).
Proof.
  intros l i [_ [A [B _]]] H. rewrite B, A, map_map. rewrite nth_error_map. 
  rewrite (nth_error_nth' _ 0%nat) by (rewrite seq_length; auto). rewrite seq_nth by auto. reflexivity.
Qed.
Definition s_drawnL (l : lrf R) := s_drawn (s_beam (l_amin l) (l_amax l) (l_num l)) (N.to_nat (l_num l)).
Lemma drawn_none : forall l p q ranges, (forall i d, (i < N.to_nat (l_num l))%nat -> ~ s_lit (s_beam (l_amin l) (l_amax l) (l_num l) i) p q d) -> s_drawnL l p q ranges ranges.
Proof.
  intros l p q ranges H. split; auto. intros i r E. right. split; auto. destruct (le_lt_dec (N.to_nat (l_num l)) i); [left; auto|right]. intros d. apply H; auto.
Qed.
Lemma drawn_part : forall l p q is_ ranges, table_ok l -> (N.to_nat (l_num l) <= length ranges)%nat -> NoDup is_ ->
  (forall i, In i is_ <-> (i < N.to_nat (l_num l))%nat /\ exists d, s_lit (s_beam (l_amin l) (l_amax l) (l_num l) i) p q d) ->
  exists ranges', render_part l p (v2sub q p) is_ ranges = Ret ranges' /\ s_drawnL l p q ranges ranges'.
Proof.
  intros l p q is_ ranges TO LN ND H.
  destruct (part_R l p q is_ ranges ND) as [ranges' [E [LN' [O K]]]].
  { intros i I. apply H in I as [I [d L]]. split; [lia|]. eexists. split; [apply ray_at; auto|eauto]. }
  exists ranges'. split; auto. split; auto. intros i r N. destruct (in_dec Nat.eq_dec i is_) as [I|I].
  - left. pose proof (proj1 (H i) I) as [J [d L]]. split; auto. destruct (K i I) as [a [r' [d' [A1 [A2 [A3 A4]]]]]].
    assert (r' = r) by congruence. subst r'. exists d'. split; auto. rewrite ray_at in A1 by auto. injection A1 as C S. unfold s_lit in *. rewrite C, S. auto.
  - right. rewrite (O i I). split; auto. destruct (le_lt_dec (N.to_nat (l_num l)) i); [left; auto|right]. intros d L. apply I. apply H. eauto.
Qed.
Lemma urange_in : forall lo hi i, In i (urange lo hi) <-> (N.to_nat lo <= i < N.to_nat hi)%nat.
Proof. intros. unfold urange. rewrite in_seq. lia. Qed.
Lemma urange_nodup : forall lo hi, NoDup (urange lo hi).
Proof. intros. apply seq_NoDup. Qed.

(** squared distance from the origin to the segment *)
Lemma dist2_spec : forall p q : vec2 R, s_len2 (v2sub q p) <> 0 ->
  let D := line_dist2 p q (v2sub q p) (v2length2 (v2sub q p)) in
  (exists t, 0 <= t <= 1 /\ D = s_len2 (s_along p q t)) /\ forall t, 0 <= t <= 1 -> D <= s_len2 (s_along p q t).
Proof.
  intros [x y] [u v] NZ D. unfold s_len2, v2sub in NZ. cbn [v2x v2y] in NZ. unR.
  set (a := u - x) in *. set (b := v - y) in *. set (L := a * a + b * b) in *.
  assert (LP : 0 < L). { pose proof (Rle_0_sqr a). pose proof (Rle_0_sqr b). unfold Rsqr in *. unfold L in *. lra. }
  set (t0 := (x * a + y * b) / - L). assert (T : x * a + y * b = - t0 * L) by (unfold t0; field; lra).
  assert (Q : forall t, s_len2 (s_along (V2 x y) (V2 u v) t) = (x * x + y * y) - 2 * t * t0 * L + t * t * L).
  { intros t. unfold s_len2, s_along. cbn [v2x v2y]. fold a b. unfold L. transitivity (x * x + y * y + 2 * t * (x * a + y * b) + t * t * (a * a + b * b)); [ring|]. rewrite T. unfold L. ring. }
  assert (D_eq : D = if Rltb t0 0 then s_len2 (V2 x y) else if Rltb 1 t0 then s_len2 (V2 u v) else s_len2 (s_along (V2 x y) (V2 u v) t0)).
  { unfold D, line_dist2, v2dot, v2length2, v2length2, v2sub, s_len2. unfold v2dot. cbn [v2x v2y]. unR. fold a b. fold L. fold t0.
    destruct (Rltb t0 0); [reflexivity|]. destruct (Rltb 1 t0); [reflexivity|]. unfold s_along, v2add, v2scale. cbn [v2x v2y]. unR. fold a b.
    rewrite !(Rmult_comm t0). reflexivity. }
  assert (P0 : s_along (V2 x y) (V2 u v) 0 = V2 x y) by (unfold s_along; cbn [v2x v2y]; f_equal; ring).
  assert (P1 : s_along (V2 x y) (V2 u v) 1 = V2 u v) by (unfold s_along; cbn [v2x v2y]; f_equal; ring).
  assert (KEY : forall s, 0 <= s <= 1 -> D = s_len2 (s_along (V2 x y) (V2 u v) s) -> (forall t, 0 <= t <= 1 -> 0 <= (t - s) * (t + s - 2 * t0)) ->
    (exists t, 0 <= t <= 1 /\ D = s_len2 (s_along (V2 x y) (V2 u v) t)) /\ forall t, 0 <= t <= 1 -> D <= s_len2 (s_along (V2 x y) (V2 u v) t)).
  { intros s S E G. split; [exists s; auto|]. intros t Ht. rewrite E, !Q. specialize (G t Ht). pose proof (Rmult_le_pos _ _ G (Rlt_le _ _ LP)). 
    replace (x * x + y * y - 2 * t * t0 * L + t * t * L) with (x * x + y * y - 2 * s * t0 * L + s * s * L + (t - s) * (t + s - 2 * t0) * L) by ring. lra. }
  destruct (Rltb t0 0) eqn:A.
  - apply Rltb_true in A. apply (KEY 0); [lra|rewrite P0; auto|]. intros t Ht. apply Rmult_le_pos; lra.
  - apply Rltb_false in A. destruct (Rltb 1 t0) eqn:B.
    + apply Rltb_true in B. apply (KEY 1); [lra|rewrite P1; auto|]. intros t Ht. replace ((t - 1) * (t + 1 - 2 * t0)) with ((1 - t) * (2 * t0 - t - 1)) by ring. apply Rmult_le_pos; lra.
    + apply Rltb_false in B. apply (KEY t0); [lra|auto|]. intros t Ht. replace ((t - t0) * (t + t0 - 2 * t0)) with (Rsqr (t - t0)) by (unfold Rsqr; ring). apply Rle_0_sqr.
Qed.
Lemma NoDup_app_disj : forall {A} (l1 l2 : list A), NoDup l1 -> NoDup l2 -> (forall i, In i l1 -> ~ In i l2) -> NoDup (l1 ++ l2).
Proof.
  intros A l1. induction l1 as [|a l1 IH]; intros l2 N1 N2 D; [exact N2|]. inversion N1; subst. cbn. constructor.
  - rewrite in_app_iff. intros [I|I]; [contradiction|]. apply (D a); [left; auto|auto].
  - apply IH; auto. intros i I. apply D. right; auto.
Qed.
(** a configuration whose beams lie in (-pi, pi] and whose indices fit in an int *)
Definition config_ok (l : lrf R) : Prop :=
  table_ok l /\ (0 < l_num l < 2147483648)%N /\ - PI < l_amin l < l_amax l /\ l_amax l <= PI /\ 2 * PI / l_incr l <= IZR 2147483640.
Definition dir_ok (l : lrf R) (a : R) : Prop := ~ (l_amin l - l_incr l < a < l_amin l).
Lemma beam_range : forall l i, config_ok l -> (i < N.to_nat (l_num l))%nat -> - PI < s_beam (l_amin l) (l_amax l) (l_num l) i <= PI.
Proof.
  intros l i [_ [NB [A [B _]]]] H. assert (0 <= INR i * s_incr (l_amin l) (l_amax l) (l_num l) <= l_amax l - l_amin l).
  { pose proof (incr_pos (l_amin l) (l_amax l) (l_num l) ltac:(lra)) as IP. split; [apply Rmult_le_pos; [apply pos_INR|lra]|].
    unfold s_incr in *. destruct (N.leb_spec (l_num l) 1).
    - assert (i = 0%nat) by lia. subst. cbn. lra.
    - assert (1 <= IZR (Z.of_N (l_num l)) - 1). { assert (IZR 2 <= IZR (Z.of_N (l_num l))) by (apply IZR_le; lia). lra. }
      apply Rmult_le_reg_r with (IZR (Z.of_N (l_num l)) - 1); [lra|]. replace (INR i * ((l_amax l - l_amin l) / (IZR (Z.of_N (l_num l)) - 1)) * (IZR (Z.of_N (l_num l)) - 1)) with (INR i * (l_amax l - l_amin l)) by (field; lra).
      rewrite (Rmult_comm (INR i)). apply Rmult_le_compat_l; [lra|]. rewrite INR_IZR_INZ. rewrite <- minus_IZR. apply IZR_le. lia. }
  unfold s_beam. lra.
Qed.
Lemma turn_len : forall p q : vec2 R, v2length2 (v2sub q p) = 0 -> p = q.
Proof.
  intros [x y] [u v] H. unfold v2length2, v2dot, v2sub in H. cbn [v2x v2y] in H. unR. 
  assert (u - x = 0 /\ v - y = 0). { apply Rplus_sqr_eq_0. unfold Rsqr. exact H. } f_equal; lra.
Qed.
Lemma draw_R : forall l p q a b res, config_ok l -> s_angle p a -> s_angle q b -> dir_ok l a -> dir_ok l b ->
  3 * l_incr l <= Rabs (Rabs (b - a) - PI) -> (N.to_nat (l_num l) <= length (rr_ranges res))%nat ->
  (l_rmax l <= 0 \/ exists t, 0 <= t <= 1 /\ s_len2 (s_along p q t) <= l_rmax l * l_rmax l) ->
  exists res', renderLine l p q res = Ret res' /\ s_drawnL l p q (rr_ranges res) (rr_ranges res').
Proof.
  intros l p q a b res CF AP AQ DA DB MG LN RG. pose proof CF as [TO [NB [AM [AX II]]]]. destruct (angle_s_ang p a AP) as [EA PZ]. destruct (angle_s_ang q b AQ) as [EB QZ].
  assert (IP : 0 < l_incr l). { destruct TO as [-> _]. apply incr_pos. lra. }
  assert (BI : forall i, s_beam (l_amin l) (l_amax l) (l_num l) i = l_amin l + INR i * l_incr l). { intros. destruct TO as [-> _]. reflexivity. }
  unfold renderLine.
  assert (Z1 : forall v : vec2 R, v <> V2 0 0 -> ((v2x v =? n0)%num && (v2y v =? n0)%num)%bool = false).
  { intros [x y] V. unR. cbn [v2x v2y]. destruct (Reqb x 0) eqn:X; [|reflexivity]. destruct (Reqb y 0) eqn:Y; [|reflexivity].
    apply Reqb_true in X, Y. subst. exfalso. apply V. reflexivity. }
  rewrite (Z1 p PZ), (Z1 q QZ). cbn [orb]. unR.
  destruct (Reqb (v2length2 (v2sub q p)) 0) eqn:LZ.
  { apply Reqb_true in LZ. apply turn_len in LZ. exists res. split; auto. apply drawn_none. intros. apply lit_null. auto. }
  apply Reqb_false in LZ.
  assert (RG' : (Rltb 0 (l_rmax l) && Rltb (l_rmax l * l_rmax l) (line_dist2 p q (v2sub q p) (v2length2 (v2sub q p))))%bool = false).
  { destruct RG as [RG|[t [Ht RG]]].
    - assert (F : Rltb 0 (l_rmax l) = false) by (apply Rltb_false; auto). rewrite F. reflexivity.
    - assert (F : Rltb (l_rmax l * l_rmax l) (line_dist2 p q (v2sub q p) (v2length2 (v2sub q p))) = false); [|rewrite F; apply andb_false_r].
      apply Rltb_false. destruct (dist2_spec p q LZ) as [_ M]. specialize (M t Ht). lra. }
  rewrite RG'. clear RG'.
  destruct (polar p PZ) as [rp [_ [_ PR]]]. destruct (polar q QZ) as [rq [_ [_ QR]]]. rewrite EA in PR. rewrite EB in QR.
  set (x := (a - l_amin l) / l_incr l). set (y := (b - l_amin l) / l_incr l).
  assert (Ea : a = l_amin l + x * l_incr l) by (unfold x; field; lra). assert (Eb : b = l_amin l + y * l_incr l) by (unfold y; field; lra).
  assert (II2 : 2 * PI <= IZR 2147483640 * l_incr l).
  { apply Rmult_le_compat_r with (r := l_incr l) in II; [|lra]. unfold Rdiv in II. rewrite Rmult_assoc, Rinv_l in II by lra. lra. }
  assert (BX : forall c z, - PI < c <= PI -> c = l_amin l + z * l_incr l -> IZR (-2147483640) < z < IZR 2147483640).
  { intros c z C E. split; apply Rmult_lt_reg_r with (l_incr l); auto; change (IZR (-2147483640)) with (- IZR 2147483640); lra. }
  pose proof (BX a x PR Ea) as XB. pose proof (BX b y QR Eb) as YB.
  unfold angleRawXY. change (natan2 (v2y p) (v2x p)) with (s_ang p). change (natan2 (v2y q) (v2x q)) with (s_ang q). rewrite EA, EB.
  assert (INX : in_int x) by (unfold in_int; lra). assert (INY : in_int y) by (unfold in_int; lra).
  rewrite (raw_R l a), (raw_R l b) by assumption. cbn [obind]. fold x y.
  assert (TX : (-2147483640 <= Ztrunc x <= 2147483640)%Z).
  { split; [rewrite <- (Ztrunc_IZR (-2147483640))|rewrite <- (Ztrunc_IZR 2147483640)]; apply Ztrunc_le; lra. }
  assert (TY : (-2147483640 <= Ztrunc y <= 2147483640)%Z).
  { split; [rewrite <- (Ztrunc_IZR (-2147483640))|rewrite <- (Ztrunc_IZR 2147483640)]; apply Ztrunc_le; lra. }
  (* the two raw indices and the beams they separate *)
  assert (SA : forall k, (Ztrunc x + 1 <= Z.of_nat k)%Z <-> a < s_beam (l_amin l) (l_amax l) (l_num l) k).
  { intros k. rewrite BI. apply raw_spec; auto. }
  assert (SB : forall k, (Ztrunc y + 1 <= Z.of_nat k)%Z <-> b < s_beam (l_amin l) (l_amax l) (l_num l) k).
  { intros k. rewrite BI. apply raw_spec; auto. }
  pose proof (raw_close x) as CX. pose proof (raw_close y) as CY.
  assert (HF : PI / l_incr l - 1 < IZR (Z.of_N (l_half l)) <= PI / l_incr l /\ (Z.of_N (l_half l) <= 2147483640)%Z).
  { destruct TO as [_ [_ [_ ->]]]. assert (0 <= PI / l_incr l). { apply Rmult_le_pos; [pose proof PI_RGT_0; lra|left; apply Rinv_0_lt_compat; auto]. }
    rewrite Ztrunc_floor by auto. pose proof (Zfloor_lb (PI / l_incr l)). pose proof (Zfloor_ub (PI / l_incr l)). split; [lra|].
    apply le_IZR. assert (PI / l_incr l <= 2 * PI / l_incr l) by (unfold Rdiv; rewrite Rmult_assoc; lra). lra. }
  destruct HF as [HF HB].
  assert (S1 : s32 (l_half l) = Z.of_N (l_half l)) by (unfold s32; destruct (N.ltb_spec (l_half l) 2147483648); [reflexivity|lia]).
  assert (S2 : s32 (l_num l) = Z.of_N (l_num l)) by (unfold s32; destruct (N.ltb_spec (l_num l) 2147483648); [reflexivity|lia]).
  rewrite S1, S2. set (h := PI / l_incr l) in *. assert (HI : h * l_incr l = PI) by (unfold h; field; lra).
  set (u := (Ztrunc x + 1)%Z) in *. set (v := (Ztrunc y + 1)%Z) in *.
  pose proof PI_RGT_0 as PP.
  assert (FIN : forall is_ f, NoDup is_ -> (forall i, In i is_ <-> (i < N.to_nat (l_num l))%nat /\ exists d, s_lit (s_beam (l_amin l) (l_amax l) (l_num l) i) p q d) ->
     (forall r, rr_ranges (f r) = r) -> exists res', obind (render_part l p (v2sub q p) is_ (rr_ranges res)) (fun r => Ret (f r)) = Ret res' /\ s_drawnL l p q (rr_ranges res) (rr_ranges res')).
  { intros is_ f ND HI' FR. destruct (drawn_part l p q is_ (rr_ranges res) TO LN ND HI') as [r' [E D]]. rewrite E. cbn [obind]. exists (f r'). rewrite FR. auto. }
  assert (UV : x - y - 2 <= IZR u - IZR v <= x - y + 2) by lra.
  assert (XY : (x - y) * l_incr l = a - b) by lra.
  assert (XB2 : - IZR 2147483640 <= x - y <= IZR 2147483640).
  { split; apply Rmult_le_reg_r with (l_incr l); auto; rewrite XY; lra. }
  assert (OV : negb (Z.leb (Z.max u v - Z.min u v) 2147483647) = false).
  { apply negb_false_iff, Z.leb_le. assert (u - v <= 2147483642)%Z by (apply le_IZR; rewrite minus_IZR; lra). assert (v - u <= 2147483642)%Z by (apply le_IZR; rewrite minus_IZR; lra). lia. }
  rewrite OV.
  assert (BR : forall i, (i < N.to_nat (l_num l))%nat -> - PI < s_beam (l_amin l) (l_amax l) (l_num l) i <= PI) by (intros; apply beam_range; auto).
  destruct (Rle_or_lt (Rabs (b - a)) (PI - 3 * l_incr l)) as [NEAR|FAR].
  - (* less than half a circle *)
    assert (AB : Rabs (b - a) < PI) by lra. pose proof (Rabs_def2 _ _ AB) as AB2.
    assert (XY3 : - (h - 3) <= x - y <= h - 3).
    { assert (Rabs (a - b) <= PI - 3 * l_incr l) by (rewrite Rabs_minus_sym; auto). apply Rabs_le_inv in H. split; apply Rmult_le_reg_r with (l_incr l); auto; rewrite XY.
      - replace (- (h - 3) * l_incr l) with (- (h * l_incr l) + 3 * l_incr l) by ring. lra.
      - replace ((h - 3) * l_incr l) with (h * l_incr l - 3 * l_incr l) by ring. lra. }
    assert (LT : Z.ltb (Z.max u v - Z.min u v) (Z.of_N (l_half l)) = true).
    { apply Z.ltb_lt. assert (u - v < Z.of_N (l_half l))%Z by (apply lt_IZR; rewrite minus_IZR; lra). assert (v - u < Z.of_N (l_half l))%Z by (apply lt_IZR; rewrite minus_IZR; lra). lia. }
    rewrite LT. destruct (Rle_or_lt a b) as [LE|GT].
    + assert (UVZ : (u <= v)%Z). { unfold u, v. apply Zplus_le_compat_r, Ztrunc_le. apply Rmult_le_reg_r with (l_incr l); auto. lra. }
      destruct (Z.ltb_spec v u); [lia|].
      assert (LIT : forall i, (i < N.to_nat (l_num l))%nat -> (exists d, s_lit (s_beam (l_amin l) (l_amax l) (l_num l) i) p q d) <-> (u <= Z.of_nat i < v)%Z).
      { intros i I. rewrite lit_near by (auto; rewrite EA, EB; auto). rewrite EA, EB, SA. split; intros [H1 H2]; split; auto.
        - apply Z.lt_nge. rewrite SB. lra.
        - apply Z.lt_nge in H2. rewrite SB in H2. lra. }
      destruct (Z.leb_spec (Z.of_N (l_num l)) (Z.min u v)) as [BL|BL].
      * exists res. split; auto. apply drawn_none. intros i d I L. pose proof (proj1 (LIT i I) (ex_intro _ d L)). lia.
      * apply FIN; [apply urange_nodup| |reflexivity]. intros i. rewrite urange_in. split.
        -- intros H0. assert (I : (i < N.to_nat (l_num l))%nat) by lia. split; auto. apply LIT; auto. lia.
        -- intros [I L]. apply LIT in L; auto. lia.
    + assert (UVZ : (v <= u)%Z). { unfold u, v. apply Zplus_le_compat_r, Ztrunc_le. apply Rmult_le_reg_r with (l_incr l); auto. lra. }
      assert (NL : forall i d, (i < N.to_nat (l_num l))%nat -> ~ s_lit (s_beam (l_amin l) (l_amax l) (l_num l) i) p q d).
      { intros i d _. apply lit_none; auto. rewrite EA, EB. right. lra. }
      destruct (Z.ltb_spec v u); [exists res; split; auto; apply drawn_none; auto|].
      destruct (Z.leb_spec (Z.of_N (l_num l)) (Z.min u v)) as [BL|BL]; [exists res; split; auto; apply drawn_none; auto|].
      apply FIN; [apply urange_nodup| |reflexivity]. intros i. rewrite urange_in. split; [lia|]. intros [I [d L]]. exfalso. apply (NL i d I L).
  - (* more than half a circle *)
    assert (FAR2 : PI + 3 * l_incr l <= Rabs (b - a)).
    { unfold Rabs in MG at 1. destruct (Rcase_abs (Rabs (b - a) - PI)); lra. }
    assert (NLT : forall d : R, d = IZR u - IZR v \/ d = IZR v - IZR u -> h <= d -> Z.ltb (Z.max u v - Z.min u v) (Z.of_N (l_half l)) = false).
    { intros d E G. apply Z.ltb_ge. apply le_IZR. destruct E as [-> | ->].
      - assert (v <= u)%Z by (apply le_IZR; assert (0 <= h) by (apply Rmult_le_reg_r with (l_incr l); lra); lra). rewrite Z.max_l, Z.min_r by auto. rewrite minus_IZR. lra.
      - assert (u <= v)%Z by (apply le_IZR; assert (0 <= h) by (apply Rmult_le_reg_r with (l_incr l); lra); lra). rewrite Z.max_r, Z.min_l by auto. rewrite minus_IZR. lra. }
    unfold Rabs in FAR2. destruct (Rcase_abs (b - a)) as [NG|PG].
    + (* through the blind half *)
      assert (XY3 : h + 3 <= x - y). { apply Rmult_le_reg_r with (l_incr l); auto. rewrite XY. replace ((h + 3) * l_incr l) with (h * l_incr l + 3 * l_incr l) by ring. lra. }
      rewrite (NLT (IZR u - IZR v)) by (auto; lra).
      assert (UVZ : (v <= u)%Z). { unfold u, v. apply Zplus_le_compat_r, Ztrunc_le. apply Rmult_le_reg_r with (l_incr l); auto. lra. }
      destruct (Z.ltb_spec u v); [lia|].
      assert (LIT : forall i, (i < N.to_nat (l_num l))%nat -> (exists d, s_lit (s_beam (l_amin l) (l_amax l) (l_num l) i) p q d) <-> (u <= Z.of_nat i)%Z \/ (Z.of_nat i < v)%Z).
      { intros i I. rewrite lit_wrap by (auto; rewrite EA, EB; lra). rewrite EA, EB, SA. rewrite Z.lt_nge, SB. split; intros [H1|H1]; auto; right; lra. }
      set (L1 := urange (Z.to_N (Z.max 0 (Z.max u v))) (l_num l)). set (L2 := urange 0 (N.min (l_num l) (Z.to_N (Z.max 0 (Z.min u v))))).
      assert (AE : obind (render_part l p (v2sub q p) L1 (rr_ranges res)) (fun r => obind (render_part l p (v2sub q p) L2 r) (fun r => Ret (RR 0 (l_num l) r))) =
                   obind (render_part l p (v2sub q p) (L1 ++ L2) (rr_ranges res)) (fun r => Ret (RR 0 (l_num l) r))).
      { rewrite part_app. destruct (render_part l p (v2sub q p) L1 (rr_ranges res)); reflexivity. }
      rewrite AE. apply FIN; [| |reflexivity].
      * apply NoDup_app_disj; try apply urange_nodup. unfold L1, L2. intros i. rewrite !urange_in. lia.
      * intros i. rewrite in_app_iff. unfold L1, L2. rewrite !urange_in. split.
        -- intros H0. assert (I : (i < N.to_nat (l_num l))%nat) by lia. split; auto. apply LIT; auto. lia.
        -- intros [I L]. apply LIT in L; auto. lia.
    + assert (XY3 : x - y <= - (h + 3)). { apply Rmult_le_reg_r with (l_incr l); auto. rewrite XY. replace (- (h + 3) * l_incr l) with (- (h * l_incr l) - 3 * l_incr l) by ring. lra. }
      rewrite (NLT (IZR v - IZR u)) by (auto; lra).
      assert (u < v)%Z by (apply lt_IZR; assert (0 <= h) by (apply Rmult_le_reg_r with (l_incr l); lra); lra).
      destruct (Z.ltb_spec u v); [|lia]. exists res. split; auto. apply drawn_none. intros i d _. apply lit_none; auto. rewrite EA, EB. left. lra.
Qed.
