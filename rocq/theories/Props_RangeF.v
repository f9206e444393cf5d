(** * The maximum range of laser lines on doubles (C119) *)
From Coq Require Import ZArith NArith List Bool Lia Reals Lra Psatz.
From Flocq Require Import Core BinarySingleNaN.
From Verif Require Import Num NumOrd MathTypes Outcome Mesh Spec SpecRound Laser SpecLaser Libm SpecLibm SpecLaserF SpecRangeF
  P_Tac P_Math P_Trig P_Mesh P_Round P_OctF P_RayF P_QuatF P_Libm P_HeightF P_Laser P_LaserF P_LaserF3 P_RangeF Props_Libm Props_LaserF.
Import ListNotations.
Local Open Scope R_scope.
Local Notation fin := (is_finite (prec := 53) (emax := 1024)).

(** the limit enters through one test only *)
Lemma part_limF : forall (l : lrf F64) a b p s is_ ranges, @render_part F64 NumF (setRangeLimits l a b) p s is_ ranges = @render_part F64 NumF l p s is_ ranges.
Proof.
  intros l a b p s is_. induction is_ as [|i is_ IH]; intros ranges; [reflexivity|]. cbn [render_part]. cbn [setRangeLimits l_rays].
  destruct (or_ub (nth_error (l_rays l) i)) as [ray| | |]; cbn [obind]; auto. match goal with |- obind ?x _ = _ => destruct x as [r'| | |]; cbn [obind]; auto end.
Qed.
Definition beyond (r : F64) (p q : vec2 F64) : bool := (nltb n0 r && nltb (nmul r r) (line_dist2 p q (v2sub q p) (v2length2 (v2sub q p))))%bool.
Lemma line_limF : forall L (l : lrf F64) mn mx p q res, beyond (l_rmax l) p q = false -> beyond mx p q = false -> @renderLine F64 NumF (TrigF L) (setRangeLimits l mn mx) p q res = @renderLine F64 NumF (TrigF L) l p q res.
Proof.
  intros L l mn mx p q res W W'. unfold renderLine. match goal with |- (if ?x then _ else _) = _ => destruct x; [reflexivity|] end.
  cbn [setRangeLimits l_rmax]. unfold beyond in W, W'. rewrite W, W'. cbn [setRangeLimits l_half l_num].
  change (@angleRawXY F64 NumF (TrigF L) (setRangeLimits l mn mx) (v2x p) (v2y p)) with (@angleRawXY F64 NumF (TrigF L) l (v2x p) (v2y p)).
  change (@angleRawXY F64 NumF (TrigF L) (setRangeLimits l mn mx) (v2x q) (v2y q)) with (@angleRawXY F64 NumF (TrigF L) l (v2x q) (v2y q)).
  destruct (@angleRawXY F64 NumF (TrigF L) l (v2x p) (v2y p)) as [i1| | |]; cbn [obind]; auto. destruct (@angleRawXY F64 NumF (TrigF L) l (v2x q) (v2y q)) as [i2| | |]; cbn [obind]; auto.
  rewrite !part_limF. destruct (negb _); auto. destruct (Z.ltb (Z.max i1 i2 - Z.min i1 i2) _); auto. destruct (Z.ltb i1 i2); auto.
  destruct (render_part l p (v2sub q p) (urange (Z.to_N (Z.max 0 (Z.max i1 i2))) (l_num l)) (rr_ranges res)); cbn [obind]; auto. rewrite part_limF. reflexivity.
Qed.
Lemma line_beyond : forall L (l : lrf F64) p q res, beyond (l_rmax l) p q = true -> @renderLine F64 NumF (TrigF L) l p q res = Ret res.
Proof. intros L l p q res B. unfold renderLine. match goal with |- (if ?x then _ else _) = _ => destruct x; [reflexivity|] end. unfold beyond in B. rewrite B. reflexivity. Qed.
Lemma no_limit : forall (r : F64) p q, s_fin r -> B2R r <= 0 -> beyond r p q = false.
Proof. intros r p q F H. unfold beyond. destruct zero_R as [F0 E0]. rewrite (ltb_R n0 r F0 F), E0. assert (G : Rltb 0 (B2R r) = false) by (apply Rltb_false; lra). rewrite G. reflexivity. Qed.
Lemma beyond_F : forall p q (r : F64) M D, s_finv2 p -> s_finv2 q -> s_bound2 M (s_r2 p) -> s_bound2 M (s_r2 q) -> 1 <= M <= 1000000 -> / 1000000 <= sqrt (s_len2 (s_from (s_r2 p) (s_r2 q))) ->
  s_near2 (s_r2 p) (s_r2 q) D -> s_fin r -> 0 < B2R r <= 1000000000 ->
  let m := 40 * uro * (M * M + B2R r * B2R r) in
  (D + m <= B2R r * B2R r -> beyond r p q = false) /\ (B2R r * B2R r + m <= D -> beyond r p q = true).
Proof.
  intros p q r M D FP FQ BP BQ MB LB ND FR RB m. pose proof uro_pos as UP. pose proof eta_tiny as ET.
  set (len := sqrt (s_len2 (s_from (s_r2 p) (s_r2 q)))) in *.
  assert (LL : len * len = s_len2 (s_from (s_r2 p) (s_r2 q))). { unfold len. apply sqrt_sqrt. unfold s_len2. nra. }
  destruct (dist2_F p q M len FP FQ BP BQ MB LL LB D ND) as [FD HD]. apply Rabs_le_inv in HD.
  assert (R2 : 0 <= B2R r * B2R r <= 1000000000 * 1000000000) by nra.
  destruct (mul_R r r FR FR) as [FM EM]; [apply big30; rewrite Rabs_pos_eq by lra; lra|].
  pose proof (rnd_err (B2R r * B2R r)) as RE. rewrite <- EM, (Rabs_pos_eq (B2R r * B2R r)) in RE by lra. apply Rabs_le_inv in RE.
  assert (M2 : 1 <= M * M) by nra. destruct zero_R as [F0 E0].
  assert (UM : uro <= uro * (M * M)) by nra. assert (UR : 0 <= uro * (B2R r * B2R r)) by nra.
  assert (MM : m = 40 * (uro * (M * M)) + 40 * (uro * (B2R r * B2R r))) by (unfold m; ring).
  replace (38 * uro * (M * M)) with (38 * (uro * (M * M))) in HD by ring.
  assert (T0 : nltb n0 r = true) by (rewrite (ltb_R n0 r F0 FR), E0; apply Rltb_true; lra).
  unfold beyond. rewrite T0. cbn [andb]. rewrite (ltb_R _ _ FM FD). split; intros H.
  - apply Rltb_false. lra.
  - apply Rltb_true. lra.
Qed.

(** a segment that comes within the range, by the margin: the same doubles as without a limit *)
Theorem C119_within : forall L (l : lrf F64) p q ranges M D rmin none, s_finv2 p -> s_finv2 q -> s_bound2 M (s_r2 p) -> s_bound2 M (s_r2 q) -> 1 <= M <= 1000000 ->
  / 1000000 <= sqrt (s_len2 (s_from (s_r2 p) (s_r2 q))) -> s_near2 (s_r2 p) (s_r2 q) D -> s_fin (l_rmax l) -> 0 < B2R (l_rmax l) <= 1000000000 ->
  let r2 := B2R (l_rmax l) * B2R (l_rmax l) in D + 40 * uro * (M * M + r2) <= r2 -> s_fin none -> B2R none <= 0 ->
  @lrf_renderLine F64 NumF (TrigF L) l p q ranges = @lrf_renderLine F64 NumF (TrigF L) (setRangeLimits l rmin none) p q ranges.
Proof.
  intros L l p q ranges M D rmin none FP FQ BP BQ MB LB ND FR RB r2 IN FN NN. destruct (beyond_F p q (l_rmax l) M D FP FQ BP BQ MB LB ND FR RB) as [W _]. specialize (W IN).
  unfold lrf_renderLine. rewrite (line_limF L l rmin none p q _ W (no_limit none p q FN NN)). reflexivity.
Qed.
(** a segment that stays out of range, by the margin: nothing changes *)
Theorem C119_beyond : forall L (l : lrf F64) p q ranges M D, s_finv2 p -> s_finv2 q -> s_bound2 M (s_r2 p) -> s_bound2 M (s_r2 q) -> 1 <= M <= 1000000 ->
  / 1000000 <= sqrt (s_len2 (s_from (s_r2 p) (s_r2 q))) -> s_near2 (s_r2 p) (s_r2 q) D -> s_fin (l_rmax l) -> 0 < B2R (l_rmax l) <= 1000000000 ->
  let r2 := B2R (l_rmax l) * B2R (l_rmax l) in r2 + 40 * uro * (M * M + r2) <= D ->
  @lrf_renderLine F64 NumF (TrigF L) l p q ranges = Ret ranges.
Proof.
  intros L l p q ranges M D FP FQ BP BQ MB LB ND FR RB r2 OUT. destruct (beyond_F p q (l_rmax l) M D FP FQ BP BQ MB LB ND FR RB) as [_ W]. specialize (W OUT).
  unfold lrf_renderLine. rewrite (line_beyond L l p q _ W). reflexivity.
Qed.
Lemma run_app : forall L (l : lrf F64) a b l', @lrf_run F64 NumF (TrigF L) l a = Ret l' -> @lrf_run F64 NumF (TrigF L) l (a ++ b) = @lrf_run F64 NumF (TrigF L) l' b.
Proof.
  intros L l a. revert l. induction a as [|o a IH]; intros l b l' H; cbn [lrf_run app] in *; [injection H as <-; reflexivity|].
  destruct (lrf_step l o) as [l1| | |]; cbn [obind] in *; try discriminate. eauto.
Qed.
(** so the whole segment is drawn, also the part out of range: exactly the beams it lights change *)
Theorem C119_drawn : forall c L ops l p q ranges M k D, s_libm c L -> 0 <= c <= 1000 -> @lrf_run F64 NumF (TrigF L) lrf_new ops = Ret l ->
  let mn := l_amin l in let mx := l_amax l in let beam := s_beamF mn mx (l_num l) in let n := N.to_nat (l_num l) in let r2 := B2R (l_rmax l) * B2R (l_rmax l) in
  s_configF mn mx (l_num l) -> - PI < B2R mn -> B2R mx <= PI -> s_fin (l_rmax l) -> 0 < B2R (l_rmax l) <= 1000000000 ->
  s_finv2 p -> s_finv2 q -> s_bound2 M (s_r2 p) -> s_bound2 M (s_r2 q) -> 1 <= M <= 1000000 -> / 1000 <= k <= 1 ->
  / 1000000 <= sqrt (s_len2 (s_from (s_r2 p) (s_r2 q))) -> s_fairF (B2R mn) (B2R mx) (l_num l) (s_r2 p) (s_r2 q) -> s_steep M k beam n (s_r2 p) (s_r2 q) -> (n <= length ranges)%nat ->
  s_near2 (s_r2 p) (s_r2 q) D -> D + 40 * uro * (M * M + r2) <= r2 ->
  exists ranges', @lrf_renderLine F64 NumF (TrigF L) l p q ranges = Ret ranges' /\
    s_drawnF beam n (s_r2 p) (s_r2 q) (fun i d => (4 * c + 30 * INR i + 200) * uro * M / k + d / 16777216) ranges ranges'.
Proof.
  intros c L ops l p q ranges M k D HL C RUN mn mx beam n r2 CF MN MX FR RB FP FQ BP BQ MB KB LB FA ST LEN ND IN. destruct zero_R as [F0 E0].
  rewrite (C119_within L l p q ranges M D n0 n0); auto; [|rewrite E0; lra].
  apply (C109_line c L (ops ++ [LRange n0 n0]) (setRangeLimits l n0 n0) p q ranges M k HL C); auto; [rewrite (run_app _ _ _ _ _ RUN); reflexivity|].
  cbn [setRangeLimits l_rmax]. rewrite E0. lra.
Qed.
(** the margin cannot be dropped: a segment in range that is skipped, and one out of range that is drawn *)
Definition mg_in : F64 := @B754_finite 53 1024 false 8379041767154364 (-52) eq_refl.
Definition mg_out : F64 := @B754_finite 53 1024 false 8454769454570779 (-52) eq_refl.
Definition mg_q : vec2 F64 := V2 (nofZ 2) (nofZ 1).
Lemma mg_near : forall py, s_near2 (V2 1 py) (V2 2 1) ((1 * (1 - py) - py * 1) * (1 * (1 - py) - py * 1) / (1 + (1 - py) * (1 - py))) \/ ~ (0 <= - (1 + py * (1 - py)) / (1 + (1 - py) * (1 - py)) <= 1).
Proof.
  intros py. set (d := 1 - py). set (L := 1 + d * d). assert (L0 : 0 < L) by (unfold L; nra).
  destruct (Rle_dec 0 (- (1 + py * d) / L)) as [A|A]; [|right; lra]. destruct (Rle_dec (- (1 + py * d) / L) 1) as [B|B]; [|right; lra]. left.
  assert (Q : forall t, s_len2 (s_along (V2 1 py) (V2 2 1) t) - (1 * d - py * 1) * (1 * d - py * 1) / L = L * ((t - - (1 + py * d) / L) * (t - - (1 + py * d) / L))).
  { intros t. unfold s_len2, s_along. cbn [v2x v2y]. unfold L, d in *. field. nra. }
  split.
  - exists (- (1 + py * d) / L). split; [lra|]. specialize (Q (- (1 + py * d) / L)). replace (- (1 + py * d) / L - - (1 + py * d) / L) with 0 in Q by ring. rewrite !Rmult_0_l, Rmult_0_r in Q. lra.
  - intros t _. specialize (Q t). assert (0 <= L * ((t - - (1 + py * d) / L) * (t - - (1 + py * d) / L))) by (apply Rmult_le_pos; [lra|exact (Rle_0_sqr (t - - (1 + py * d) / L))]). unfold d, L in *. lra.
Qed.
Theorem C119_margin :
  (exists (p q : vec2 F64) (r : F64) D, s_near2 (s_r2 p) (s_r2 q) D /\ 0 < B2R r /\ D < B2R r * B2R r /\ forall L l rmin ranges, @lrf_renderLine F64 NumF (TrigF L) (setRangeLimits l rmin r) p q ranges = Ret ranges) /\
  (exists (p q : vec2 F64) (r none : F64) D, s_near2 (s_r2 p) (s_r2 q) D /\ 0 < B2R r /\ B2R r * B2R r < D /\ B2R none <= 0 /\ forall L l rmin ranges, @lrf_renderLine F64 NumF (TrigF L) (setRangeLimits l rmin r) p q ranges = @lrf_renderLine F64 NumF (TrigF L) (setRangeLimits l rmin none) p q ranges).
Proof.
  destruct (ofZ_R 1 eq_refl) as [F1 E1]. destruct (ofZ_R 2 eq_refl) as [F2 E2]. destruct (ofZ_R (-7) eq_refl) as [F7 E7]. destruct (ofZ_R (-8) eq_refl) as [F8 E8]. destruct zero_R as [F0 E0].
  assert (VI : B2R mg_in = 8379041767154364 / 4503599627370496) by (unfold mg_in, B2R, F2R; cbn; lra).
  assert (VO : B2R mg_out = 8454769454570779 / 4503599627370496) by (unfold mg_out, B2R, F2R; cbn; lra).
  split.
  - exists (V2 (nofZ 1) (nofZ (-7))), mg_q, mg_in, (45 / 13). split; [|split; [rewrite VI; lra|split; [rewrite VI; lra|]]].
    + unfold s_r2, mg_q. cbn [v2x v2y]. rewrite E1, E2, E7. destruct (mg_near (-7)) as [H|H]; [|exfalso; apply H; lra]. replace (45 / 13) with ((1 * (1 - -7) - -7 * 1) * (1 * (1 - -7) - -7 * 1) / (1 + (1 - -7) * (1 - -7))) by field. exact H.
    + intros L l rmin ranges. unfold lrf_renderLine. rewrite line_beyond; [reflexivity|]. vm_compute. reflexivity.
  - exists (V2 (nofZ 1) (nofZ (-8))), mg_q, mg_out, n0, (289 / 82). split; [|split; [rewrite VO; lra|split; [rewrite VO; lra|split; [rewrite E0; lra|]]]].
    + unfold s_r2, mg_q. cbn [v2x v2y]. rewrite E1, E2, E8. destruct (mg_near (-8)) as [H|H]; [|exfalso; apply H; lra]. replace (289 / 82) with ((1 * (1 - -8) - -8 * 1) * (1 * (1 - -8) - -8 * 1) / (1 + (1 - -8) * (1 - -8))) by field. exact H.
    + intros L l rmin ranges. unfold lrf_renderLine. change (setRangeLimits l rmin n0) with (setRangeLimits (setRangeLimits l rmin mg_out) rmin n0). rewrite (line_limF L (setRangeLimits l rmin mg_out)); [reflexivity| |].
      * vm_compute. reflexivity.
      * vm_compute. reflexivity.
Qed.
(** nine beams, a wall at distance one: drawn with a range of two, skipped with a range of one half *)
Example C119_nonvacuous : exists l, let TL := TrigF cr_libm in s_libm 2 cr_libm /\ lrf_run lrf_new [LBeams 9; LAngles (nofZ (-1)) (nofZ 1); LRange n0 (nofZ 2)] = Ret l /\ s_configF (l_amin l) (l_amax l) (l_num l) /\
  s_fin (l_rmax l) /\ B2R (l_rmax l) = 2 /\ B2R (ndiv n1 (nofZ 2) : F64) = / 2 /\
  let p : vec2 F64 := V2 (nofZ 1) (nofZ (-1)) in let q : vec2 F64 := V2 (nofZ 1) (nofZ 1) in
  s_finv2 p /\ s_finv2 q /\ s_bound2 1 (s_r2 p) /\ s_bound2 1 (s_r2 q) /\ / 1000000 <= sqrt (s_len2 (s_from (s_r2 p) (s_r2 q))) /\
  s_near2 (s_r2 p) (s_r2 q) 1 /\ 1 + 40 * uro * (1 * 1 + 2 * 2) <= 2 * 2 /\ / 2 * / 2 + 40 * uro * (1 * 1 + / 2 * / 2) <= 1 /\
  s_fairF (B2R (l_amin l)) (B2R (l_amax l)) (l_num l) (s_r2 p) (s_r2 q) /\ s_steep 1 (/ 1000) (s_beamF (l_amin l) (l_amax l) (l_num l)) (N.to_nat (l_num l)) (s_r2 p) (s_r2 q) /\
  s_lit (s_beamF (l_amin l) (l_amax l) (l_num l) 4) (s_r2 p) (s_r2 q) 1.
Proof.
  destruct C109_nonvacuous as [l H]. cbv zeta in H. destruct H as [HL [RUN [CF [MN [MX [FR [RB [FP [FQ [BP [BQ [LB [FA [ST LT]]]]]]]]]]]]]]. destruct (ofZ_R 2 eq_refl) as [F2 E2]. destruct (ofZ_R 1 eq_refl) as [F1 E1]. destruct (ofZ_R (-1) eq_refl) as [F3 E3].
  exists (setRangeLimits l n0 (nofZ 2)). intros TL. split; [exact HL|]. split.
  { pose proof (run_app cr_libm lrf_new [LBeams 9; LAngles (nofZ (-1)) (nofZ 1)] [LRange n0 (nofZ 2)] l RUN) as G. cbn [app] in G. fold TL in G. rewrite G. reflexivity. }
  cbn [setRangeLimits l_amin l_amax l_num l_rmax]. split; [exact CF|]. split; [exact F2|]. split; [exact E2|]. split; [rewrite <- SF2R_B2SF; replace (B2SF (ndiv n1 (nofZ 2) : F64)) with (SpecFloat.S754_finite false 4503599627370496 (-53)) by (vm_compute; reflexivity); unfold SF2R, F2R; cbn; lra|].
  split; [exact FP|]. split; [exact FQ|]. split; [exact BP|]. split; [exact BQ|]. split; [exact LB|]. split.
  - unfold s_r2. cbn [v2x v2y]. rewrite E1, E3. split.
    + exists (1 / 2). split; [lra|]. unfold s_len2, s_along. cbn [v2x v2y]. field.
    + intros t _. unfold s_len2, s_along. cbn [v2x v2y]. pose proof (Rle_0_sqr (2 * t - 1)) as G. unfold Rsqr in G. lra.
  - assert (U : 0 < uro <= / 1000000) by (split; [apply uro_pos|unfold uro; lra]). split; [lra|]. split; [lra|]. split; [exact FA|]. split; [exact ST|exact LT].
Qed.
Print Assumptions C119_within.
Print Assumptions C119_beyond.
Print Assumptions C119_drawn.
Print Assumptions C119_margin.
