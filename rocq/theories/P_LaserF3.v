(** * The laser range finder on doubles: lines *)
From Coq Require Import ZArith NArith List Bool Lia Reals Lra Psatz.
From Flocq Require Import Core BinarySingleNaN.
From Verif Require Import Num NumOrd MathTypes Outcome Mesh Spec SpecRound Laser SpecLaser Libm SpecLibm SpecLaserF
  P_Tac P_Math P_Trig P_Mesh P_MeshGeo P_Round P_OctF P_RayF P_QuatF P_KeyF P_F32 P_Depth P_Libm P_HeightF P_Laser P_Laser2 P_Laser3 P_LaserF P_LaserF2.
Import ListNotations.
Local Open Scope R_scope.
Local Notation fin := (is_finite (prec := 53) (emax := 1024)).

Lemma eqb0_ne : forall x : F64, fin x = true -> B2R x <> 0 -> neqb x n0 = false.
Proof.
  intros x F N. destruct (neqb x n0) eqn:E; auto. exfalso. apply neqb_key in E as [k [K1 K2]]. cbn [nkey NumOrdF] in K1, K2. destruct zero_R as [FZ EZ]. rewrite (fkey_finite x F) in K1.
  change (fkey (nofZ 0)) with (fkey (n0 : F64)) in K2. rewrite (fkey_finite n0 FZ) in K2. rewrite EZ in K2. apply N. congruence.
Qed.
Lemma rel_sub : forall x y : F64, fin x = true -> fin y = true -> Rabs (B2R x - B2R y) <= 100000000 ->
  near (uro * Rabs (B2R x - B2R y)) (nsub x y) (B2R x - B2R y).
Proof.
  intros x y FX FY B. destruct (sub_R x y FX FY) as [F E]; [eapply Rle_trans; [exact B|]; apply Rle_trans with (10 ^ 30); [lra|apply big_ge]|].
  split; auto. rewrite E. apply (rnd_plus (B2R x) (- B2R y) (gen_B2R x) (generic_format_opp _ _ _ (gen_B2R y))).
Qed.
Lemma prod_near : forall (a s : F64) X Y e A len, near e a X -> near (uro * len) s Y -> Rabs X <= A -> Rabs Y <= len -> 1 <= A <= 1000000 -> / 1000000 <= len <= 10000000 -> e <= A / 1000 ->
  near ((102 / 100 * e + 21 / 10 * uro * A) * len) (nmul a s) (X * Y) /\ Rabs (B2R (nmul a s)) <= 101 / 100 * A * len.
Proof.
  intros a s X Y e A len [FA HA] [FS HS] BX BY [A0 A1] [L0 L1] EB. pose proof uro_pos as U0. pose proof u_small as US. pose proof eta_tiny as ET.
  assert (E0 : 0 <= e) by (pose proof (Rabs_pos (B2R a - X)); lra). pose proof (Rabs_close _ _ _ _ HS BY) as SB. pose proof (Rabs_close _ _ _ _ HA BX) as AB.
  set (a' := B2R a) in *. set (s' := B2R s) in *.
  assert (AL : 0 <= A * len) by nra. assert (EL : 0 <= e * len) by nra. assert (EA : e * len <= / 1000 * (A * len)) by nra.
  assert (P : Rabs (a' * s' - X * Y) <= 1001 / 1000 * (e * len) + uro * (A * len)).
  { replace (a' * s' - X * Y) with ((a' - X) * s' + X * (s' - Y)) by ring. eapply Rle_trans; [apply Rabs_triang|].
    pose proof (Rabs_mult_le _ _ _ _ HA SB) as P1. pose proof (Rabs_mult_le _ _ _ _ BX HS) as P2. assert (uro * len <= len / 1000) by nra. nra. }
  assert (XY : Rabs (X * Y) <= A * len) by (apply Rabs_mult_le; auto). pose proof (Rabs_close _ _ _ _ P XY) as PB.
  assert (UA : uro * (A * len) <= / 1000 * (A * len)) by nra. assert (UA0 : 0 <= uro * (A * len)) by (apply Rmult_le_pos; lra).
  assert (PB2 : Rabs (a' * s') <= 1003 / 1000 * (A * len)) by lra.
  destruct (mul_R a s FA FS) as [F E]. { fold a' s'. eapply Rle_trans; [exact PB2|]. apply Rle_trans with (10 ^ 30); [|apply big_ge]. nra. }
  fold a' s' in E. pose proof (rnd_err (a' * s')) as G.
  assert (GU : uro * Rabs (a' * s') <= uro * (1003 / 1000 * (A * len))) by (apply uro_le; auto). assert (AL6 : / 1000000 <= A * len) by nra. pose proof (uro_le _ _ AL6) as AL7. assert (ET2 : eta <= uro * (A * len) / 1000) by lra.
  assert (TOT : Rabs (rnd (a' * s') - X * Y) <= (102 / 100 * e + 21 / 10 * uro * A) * len).
  { replace (rnd (a' * s') - X * Y) with ((rnd (a' * s') - a' * s') + (a' * s' - X * Y)) by ring. eapply Rle_trans; [apply Rabs_triang|]. lra. }
  split; [split; auto; rewrite E; exact TOT|]. rewrite E. replace (rnd (a' * s')) with ((rnd (a' * s') - a' * s') + a' * s') by ring. eapply Rle_trans; [apply Rabs_triang|]. lra.
Qed.
Lemma cross_near : forall (a b : vec2 F64) X Y SX SY e A len, near e (v2x a) X -> near e (v2y a) Y -> near (uro * len) (v2x b) SX -> near (uro * len) (v2y b) SY ->
  Rabs X <= A -> Rabs Y <= A -> Rabs SX <= len -> Rabs SY <= len -> 1 <= A <= 1000000 -> / 1000000 <= len <= 10000000 -> e <= A / 1000 ->
  near ((21 / 10 * e + 7 * uro * A) * len) (v2cross a b) (X * SY - Y * SX).
Proof.
  intros a b X Y SX SY e A len NX NY NSX NSY BX BY BSX BSY AB LB EB. pose proof uro_pos as U0. pose proof u_small as US.
  destruct (prod_near _ _ _ _ _ _ _ NX NSY BX BSY AB LB EB) as [[F1 H1] M1]. destruct (prod_near _ _ _ _ _ _ _ NY NSX BY BSX AB LB EB) as [[F2 H2] M2].
  assert (E0 : 0 <= e) by (destruct NX as [_ H]; pose proof (Rabs_pos (B2R (v2x a) - X)); lra).
  unfold v2cross. set (x := nmul (v2x a) (v2y b)) in *. set (y := nmul (v2y a) (v2x b)) in *.
  assert (S : Rabs (B2R x - B2R y) <= 202 / 100 * A * len) by (apply Rabs_le; apply Rabs_le_inv in M1, M2; lra).
  destruct (sub_R x y F1 F2) as [F E]. { eapply Rle_trans; [exact S|]. apply Rle_trans with (10 ^ 30); [|apply big_ge]. nra. }
  split; auto. rewrite E. pose proof (rnd_plus (B2R x) (- B2R y) (gen_B2R x) (generic_format_opp _ _ _ (gen_B2R y))) as G. change (B2R x + - B2R y) with (B2R x - B2R y) in G.
  assert (GU : uro * Rabs (B2R x - B2R y) <= uro * (202 / 100 * A * len)) by (apply uro_le; auto).
  assert (EL : 0 <= e * len) by nra. assert (UL : 0 <= uro * (A * len)) by (apply Rmult_le_pos; [lra|nra]).
  apply Rabs_le_inv in H1, H2, G. apply Rabs_le. nra.
Qed.

(** ** the distance *)
Lemma dist_near : forall (nf tf : F64) N T d e M k len, near (7 * uro * M * len) nf N -> near ((21 / 10 * e + 7 * uro) * len) tf T ->
  N = d * T -> 1 <= M <= 1000000 -> / 1000 <= k <= 1 -> / 1000000 <= len -> k * len <= T -> M / 1000 <= d <= 3 / 2 * M -> 0 <= e <= / 10000000 ->
  let D := ndiv nf tf in nltb n0 D = true /\ fin (nf32 D) = true /\ Rabs (B2R (nf32 D) - d) <= (33 / 10 * e + 25 * uro) * M / k + d / 16777216.
Proof.
  intros nf tf N T d e M k len [FN HN] [FT HT] EN [M0 M1] [K0 K1] L0 KT [D0 D1] [E0 E1] D. pose proof uro_pos as U0. pose proof u_small as US. pose proof eta_tiny as ET.
  set (n := B2R nf) in *. set (t := B2R tf) in *. assert (LK : 0 < k * len) by nra.
  assert (TE : (21 / 10 * e + 7 * uro) * len <= T / 1000). { apply Rle_trans with (k * len / 1000); [|lra]. replace (k * len / 1000) with (k / 1000 * len) by field. apply Rmult_le_compat_r; lra. }
  pose proof HT as HT2. apply Rabs_le_inv in HT2. assert (TP : 999 / 1000 * T <= t) by lra. assert (T0 : 0 < t) by lra.
  assert (TL : 999 / 1000 * (k * len) <= t) by lra.
  set (w := M / k). assert (WK : w * k = M) by (unfold w; field; lra). assert (W0 : M <= w). { unfold w. apply Rmult_le_reg_r with k; [lra|]. fold w. rewrite WK. nra. }
  assert (Q : Rabs (n / t - d) <= (32 / 10 * e + 18 * uro) * w).
  { replace (n / t - d) with (((n - N) + d * (T - t)) / t) by (rewrite EN; field; lra). unfold Rdiv at 1. rewrite Rabs_mult, (Rabs_pos_eq (/ t)) by (left; apply Rinv_0_lt_compat; auto).
    apply Rmult_le_reg_r with t; auto. rewrite Rmult_assoc, Rinv_l, Rmult_1_r by lra. eapply Rle_trans; [apply Rabs_triang|]. rewrite Rabs_mult, (Rabs_pos_eq d) by lra.
    rewrite (Rabs_minus_sym T t). assert (P : d * Rabs (t - T) <= 3 / 2 * M * ((21 / 10 * e + 7 * uro) * len)) by (apply Rmult_le_compat; try lra; apply Rabs_pos).
    assert (P2 : (32 / 10 * e + 18 * uro) * w * (999 / 1000 * (k * len)) <= (32 / 10 * e + 18 * uro) * w * t) by (apply Rmult_le_compat_l; [apply Rmult_le_pos; lra|auto]).
    replace ((32 / 10 * e + 18 * uro) * w * (999 / 1000 * (k * len))) with ((32 / 10 * e + 18 * uro) * (999 / 1000) * (w * k) * len) in P2 by ring. rewrite WK in P2.
    assert (P3 : 0 <= e * (M * len)) by (apply Rmult_le_pos; [lra|nra]). assert (P4 : 0 <= uro * (M * len)) by (apply Rmult_le_pos; [lra|nra]). nra. }
  assert (WB : w <= 1000 * M). { apply Rmult_le_reg_r with k; [lra|]. rewrite WK. nra. }
  assert (EB : (32 / 10 * e + 25 * uro) * w <= M / 2500). { apply Rle_trans with ((32 / 10 * e + 25 * uro) * (1000 * M)); [apply Rmult_le_compat_l; lra|]. unfold uro. nra. }
  assert (UW : 0 <= uro * w) by (apply Rmult_le_pos; lra).
  assert (ZB : Rabs (n / t) <= 151 / 100 * M). { apply Rle_trans with (Rabs d + (32 / 10 * e + 18 * uro) * w); [apply (Rabs_close _ _ _ _ Q); lra|]. rewrite Rabs_pos_eq by lra. lra. }
  destruct (div_R nf tf FN) as [FD ED]; [fold t; lra|fold n t; eapply Rle_trans; [exact ZB|]; apply Rle_trans with (10 ^ 30); [lra|apply big_ge]|]. fold n t in ED. fold D in FD, ED.
  pose proof (rnd_err (n / t)) as G. assert (GU : uro * Rabs (n / t) <= uro * (151 / 100 * w)) by (apply uro_le; lra). assert (ET2 : eta <= uro * w / 1000) by nra.
  assert (Q2 : Rabs (B2R D - d) <= (32 / 10 * e + 20 * uro) * w).
  { rewrite ED. replace (rnd (n / t) - d) with ((rnd (n / t) - n / t) + (n / t - d)) by ring. eapply Rle_trans; [apply Rabs_triang|]. lra. }
  pose proof Q2 as Q3. apply Rabs_le_inv in Q3. assert (DP : 0 < B2R D) by lra.
  assert (B127 : 10 ^ 30 <= bpow radix2 127). { apply Rle_trans with (bpow radix2 100); [|apply bpow_le; lia]. change (bpow radix2 100) with (IZR (2 ^ 100)). cbn. lra. }
  destruct (nf32_error D FD) as [F32 E32]; [rewrite Rabs_pos_eq by lra; lra|].
  split; [|split; [exact F32|]].
  - destruct zero_R as [FZ EZ]. rewrite (ltb_R _ _ FZ FD), EZ. apply Rltb_true. exact DP.
  - rewrite (Rabs_pos_eq (B2R D)) in E32 by lra. change (bpow radix2 (-24)) with (/ IZR 16777216) in E32.
    assert (T150 : bpow radix2 (-150) <= uro * w / 1000). { apply Rle_trans with (uro / 1000); [|nra]. apply Rle_trans with (bpow radix2 (-100)); [apply bpow_le; lia|]. change (bpow radix2 (-100)) with (/ IZR (2 ^ 100)). unfold uro. cbn. lra. }
    replace ((33 / 10 * e + 25 * uro) * M / k) with ((33 / 10 * e + 25 * uro) * w) by (unfold w; field; lra).
    assert (EW : 0 <= e * w) by (apply Rmult_le_pos; lra).
    replace (B2R (nf32 D) - d) with ((B2R (nf32 D) - B2R D) + (B2R D - d)) by ring. eapply Rle_trans; [apply Rabs_triang|].
    assert (Q4 : B2R D * / 16777216 <= d / 16777216 + (32 / 10 * e + 20 * uro) * w / 16777216) by lra. lra.
Qed.

(** ** configuring *)
Lemma calc_F : forall L (l : lrf F64), s_configF (l_amin l) (l_amax l) (l_num l) -> exists l', @calculateRays F64 NumF (TrigF L) l = Ret l'.
Proof.
  intros L l CF. destruct (incr_near _ _ _ CF) as [NI [IB _]]. unfold calculateRays. fold (kF (l_num l)). set (g := ndiv _ _) in *. set (I := s_incr _ _ _) in *.
  pose proof PI_4 as P4. pose proof PI_RGT_0 as P0.
  destruct (quot_near f_pi g PI I (2 * uro) NI IB f_pi_near) as [F H]; [apply Rabs_le; lra|unfold uro; lra|]. destruct IB as [I0 I1].
  change (@npi F64 (TrigF L)) with f_pi. set (z := B2R (ndiv f_pi g)) in *.
  assert (S : 11 / 10 * (2 * uro) / I <= / 10000000). { apply Rmult_le_reg_r with I; [lra|]. unfold Rdiv. rewrite Rmult_assoc, Rinv_l by lra. unfold uro. lra. }
  assert (Q : / 16 <= PI / I <= 4000000). { split; apply Rmult_le_reg_r with I; try lra; unfold Rdiv; rewrite Rmult_assoc, Rinv_l by lra; pose proof PI2_3_2; lra. }
  apply Rabs_le_inv in H. assert (T : (0 <= Ztrunc z <= 4294967295)%Z).
  { rewrite Ztrunc_floor by lra. split; [apply Zfloor_lub; lra|]. apply le_IZR. pose proof (Zfloor_lb z). lra. }
  rewrite (proj2 (touint_F (ndiv f_pi g) (Z.to_N (Ztrunc z)))); [cbn [or_ub obind]; eauto|]. split; [exact F|]. rewrite Z2N.id by lia. split; [reflexivity|lia].
Qed.

(** ** lines *)
Lemma angle_off : forall X Y a, s_angle (V2 X Y) a -> a < PI -> Y <> 0 \/ 0 < X.
Proof.
  intros X Y a [[A1 A2] [r [R0 E]]] LT. injection E as -> ->. destruct (Req_dec (r * sin a) 0) as [Z|Z]; auto. right.
  assert (S : sin a = 0) by (apply Rmult_integral in Z as [Z|Z]; [lra|auto]).
  assert (A0 : a = 0). { destruct (Rtotal_order a 0) as [N|[N|N]]; auto; exfalso; [pose proof (sin_lt_0_var a); lra|pose proof (sin_gt_0 a); lra]. }
  subst. rewrite cos_0. lra.
Qed.
Lemma lit_bound : forall b p q d M, s_lit b p q d -> s_bound2 M p -> s_bound2 M q -> d <= 3 / 2 * M.
Proof.
  intros b p q d M [_ [D0 [t [T E]]]] [P1 P2] [Q1 Q2]. unfold s_along in E. injection E as E1 E2. apply Rabs_le_inv in P1, P2, Q1, Q2.
  assert (X : - M <= d * cos b <= M) by (rewrite E1; split; nra). assert (Y : - M <= d * sin b <= M) by (rewrite E2; split; nra). clear E1 E2.
  pose proof (sin2_cos2 b) as SC. unfold Rsqr in SC. set (x := d * cos b) in *. set (y := d * sin b) in *.
  assert (DD : d * d = x * x + y * y) by (unfold x, y; replace (d * cos b * (d * cos b) + d * sin b * (d * sin b)) with (d * d * (sin b * sin b + cos b * cos b)) by ring; rewrite SC; ring).
  assert (M0 : 0 <= M) by lra. assert (x * x <= M * M) by nra. assert (y * y <= M * M) by nra. apply Rnot_lt_le. intro HH. assert (3 / 2 * M * (3 / 2 * M) < d * d) by nra. nra.
Qed.
Lemma lit_turn : forall b p q d, s_lit b p q d -> s_turn p (s_from p q) = d * s_turn (V2 (cos b) (sin b)) (s_from p q).
Proof.
  intros b p q d [_ [_ [t [_ E]]]]. unfold s_along in E. injection E as E1 E2. unfold s_turn, s_from. cbn [v2x v2y].
  replace (d * (cos b * (v2y q - v2y p) - sin b * (v2x q - v2x p))) with (d * cos b * (v2y q - v2y p) - d * sin b * (v2x q - v2x p)) by ring. rewrite E1, E2. ring.
Qed.
Lemma len_comp : forall v len, 0 <= len -> len * len = s_len2 v -> Rabs (v2x v) <= len /\ Rabs (v2y v) <= len.
Proof. intros v len L E. unfold s_len2 in E. split; apply Rabs_le; split; nra. Qed.
Lemma sq_pos : forall a : F64, fin a = true -> Rabs (B2R a) <= 100000000 -> fin (nmul a a) = true /\ 0 <= B2R (nmul a a) <= 10 ^ 17 /\ (/ 10000000 <= Rabs (B2R a) -> 0 < B2R (nmul a a)).
Proof.
  intros a F B. pose proof (abs_sqr (B2R a)) as S. pose proof (Rabs_pos (B2R a)) as P. assert (SB : B2R a * B2R a <= 10 ^ 16) by (rewrite <- S; nra). assert (S0 : 0 <= B2R a * B2R a) by nra.
  destruct (mul_R a a F F) as [FM EM]. { rewrite Rabs_pos_eq by auto. apply Rle_trans with (10 ^ 30); [lra|apply big_ge]. } split; auto. rewrite EM.
  pose proof (rnd_err (B2R a * B2R a)) as G. rewrite (Rabs_pos_eq (B2R a * B2R a)) in G by auto. pose proof eta_tiny as ET. apply Rabs_le_inv in G.
  assert (R1 : 0 <= rnd (B2R a * B2R a)) by (apply rnd_ge_gen; [apply gen_0|auto]). split; [split; auto; unfold uro in *; lra|].
  intros L. assert (/ 100000000000000 <= B2R a * B2R a) by (rewrite <- S; nra). unfold uro in *. lra.
Qed.
Lemma guard_len : forall s : vec2 F64, fin (v2x s) = true -> fin (v2y s) = true -> Rabs (B2R (v2x s)) <= 100000000 -> Rabs (B2R (v2y s)) <= 100000000 ->
  / 10000000 <= Rabs (B2R (v2x s)) \/ / 10000000 <= Rabs (B2R (v2y s)) -> neqb (v2length2 s) n0 = false.
Proof.
  intros s FX FY BX BY L. unfold v2length2. destruct (sq_pos _ FX BX) as [F1 [P1 Q1]]. destruct (sq_pos _ FY BY) as [F2 [P2 Q2]].
  set (x := nmul (v2x s) (v2x s)) in *. set (y := nmul (v2y s) (v2y s)) in *. assert (SP : 0 < B2R x + B2R y) by (destruct L as [L|L]; [specialize (Q1 L)|specialize (Q2 L)]; lra).
  destruct (add_R x y F1 F2) as [F E]. { rewrite Rabs_pos_eq by lra. apply Rle_trans with (10 ^ 30); [lra|apply big_ge]. }
  apply eqb0_F; auto. rewrite E. pose proof (rnd_plus _ _ (gen_B2R x) (gen_B2R y)) as G. rewrite (Rabs_pos_eq (B2R x + B2R y)) in G by lra. apply Rabs_le_inv in G. unfold uro in *. lra.
Qed.
Lemma line_F : forall c L ops (l : lrf F64) p q ranges M k, s_libm c L -> 0 <= c <= 1000 ->
  let TL := TrigF L in let mn := l_amin l in let mx := l_amax l in let beam := s_beam (B2R mn) (B2R mx) (l_num l) in let n := N.to_nat (l_num l) in
  lrf_run lrf_new ops = Ret l -> s_configF mn mx (l_num l) -> - PI < B2R mn -> B2R mx <= PI -> s_fin (l_rmax l) -> B2R (l_rmax l) <= 0 ->
  s_finv2 p -> s_finv2 q -> s_bound2 M (s_r2 p) -> s_bound2 M (s_r2 q) -> 1 <= M <= 1000000 -> / 1000 <= k <= 1 ->
  / 1000000 <= sqrt (s_len2 (s_from (s_r2 p) (s_r2 q))) -> s_fairF (B2R mn) (B2R mx) (l_num l) (s_r2 p) (s_r2 q) -> s_steep M k beam n (s_r2 p) (s_r2 q) -> (n <= length ranges)%nat ->
  exists ranges', lrf_renderLine l p q ranges = Ret ranges' /\
    s_drawnF beam n (s_r2 p) (s_r2 q) (fun i d => (4 * c + 30 * INR i + 200) * uro * M / k + d / 16777216) ranges ranges'.
Proof.
  intros c L ops l p q ranges M k HL C TL mn mx beam n RUN CF AM AX FR RM [FP1 FP2] [FQ1 FQ2] BP BQ MB KB LB [a [b [AP [AQ [LA [LBB [[OA CA] [[OB CB] MG]]]]]]]] ST LN.
  pose proof CF as [F1 [F2 [B1 [B2 [LT [NB IL]]]]]]. fold mn mx in CF. pose proof uro_pos as U0. pose proof u_small as US.
  set (P := s_r2 p) in *. set (Q := s_r2 q) in *. set (S := s_from P Q) in *. set (len := sqrt (s_len2 S)) in *.
  assert (SL : 0 <= s_len2 S) by (unfold s_len2; nra). assert (LL : len * len = s_len2 S) by (apply sqrt_sqrt; auto).
  destruct (len_comp S len ltac:(lra) LL) as [SX SY]. destruct BP as [BP1 BP2]. destruct BQ as [BQ1 BQ2].
  assert (EX : v2x S = B2R (v2x q) - B2R (v2x p)) by reflexivity. assert (EY : v2y S = B2R (v2y q) - B2R (v2y p)) by reflexivity.
  assert (SX2 : Rabs (v2x S) <= 2 * M) by (rewrite EX; apply Rabs_le; apply Rabs_le_inv in BP1, BQ1; cbn in BP1, BQ1; lra).
  assert (SY2 : Rabs (v2y S) <= 2 * M) by (rewrite EY; apply Rabs_le; apply Rabs_le_inv in BP2, BQ2; cbn in BP2, BQ2; lra).
  assert (LU : len <= 10000000). { apply Rnot_lt_le. intro H. pose proof (abs_sqr (v2x S)). pose proof (abs_sqr (v2y S)). pose proof (Rabs_pos (v2x S)). pose proof (Rabs_pos (v2y S)). unfold s_len2 in LL. nra. }
  assert (NX : near (uro * len) (nsub (v2x q) (v2x p)) (v2x S)). { eapply near_le; [rewrite EX; apply rel_sub; auto; rewrite <- EX; lra|]. rewrite <- EX. apply uro_le; auto. }
  assert (NY : near (uro * len) (nsub (v2y q) (v2y p)) (v2y S)). { eapply near_le; [rewrite EY; apply rel_sub; auto; rewrite <- EY; lra|]. rewrite <- EY. apply uro_le; auto. }
  set (s := v2sub q p). change (nsub (v2x q) (v2x p)) with (v2x s) in NX. change (nsub (v2y q) (v2y p)) with (v2y s) in NY.
  (* the guards *)
  assert (G1 : forall v x, s_fin (v2x v) -> s_fin (v2y v) -> s_angle (s_r2 v) x -> (neqb (v2x v) n0 && neqb (v2y v) n0)%bool = false).
  { intros v x FX FY [_ [r [R0 E]]]. unfold s_r2 in E. injection E as E1 E2. destruct (Req_dec (B2R (v2x v)) 0) as [Z|Z]; [|rewrite (eqb0_ne _ FX Z); reflexivity].
    rewrite (eqb0_ne _ FY); [apply andb_false_r|]. intros Z2. pose proof (sin2_cos2 x) as SC. unfold Rsqr in SC. rewrite Z in E1. rewrite Z2 in E2. assert (cos x = 0) by nra. assert (sin x = 0) by nra. nra. }
  assert (UL : uro * len <= len / 1000) by nra.
  assert (G2 : neqb (v2length2 s) n0 = false).
  { destruct NX as [FX HX]. destruct NY as [FY HY]. pose proof (Rabs_close _ _ _ _ HX SX). pose proof (Rabs_close _ _ _ _ HY SY). apply guard_len; auto; try lra.
    assert (A : forall u v : R, Rabs (u - v) <= uro * len -> Rabs v <= Rabs u + uro * len) by (intros u v H1; replace v with (u + - (u - v)) by ring; eapply Rle_trans; [apply Rabs_triang|]; rewrite Rabs_Ropp; lra).
    apply A in HX, HY. destruct (Rle_lt_dec (len / 2) (Rabs (v2x S))); [left; lra|]. right. destruct (Rle_lt_dec (len / 2) (Rabs (v2y S))); [lra|]. exfalso.
    pose proof (abs_sqr (v2x S)). pose proof (abs_sqr (v2y S)). pose proof (Rabs_pos (v2x S)). pose proof (Rabs_pos (v2y S)). unfold s_len2 in LL. nra. }
  assert (GRD : ((neqb (v2x p) n0 && neqb (v2y p) n0) || (neqb (v2x q) n0 && neqb (v2y q) n0) || neqb (v2length2 (v2sub q p)) n0)%bool = false).
  { fold s. rewrite (G1 p a FP1 FP2 AP), (G1 q b FQ1 FQ2 AQ), G2. reflexivity. }
  assert (GR : nltb n0 (l_rmax l) = false). { destruct zero_R as [FZ EZ]. rewrite (ltb_R _ _ FZ FR), EZ. apply Rltb_false. lra. }
  (* the indices *)
  pose proof PI_4 as P4.
  assert (IDX : forall v x, s_fin (v2x v) -> s_fin (v2y v) -> s_angle (s_r2 v) x -> x < PI -> (forall j : Z, s_incr (B2R mn) (B2R mx) (l_num l) / 1000000 <= Rabs (x - (B2R mn + IZR j * s_incr (B2R mn) (B2R mx) (l_num l)))) ->
    @angleRawXY F64 NumF TL l (v2x v) (v2y v) = Ret (Ztrunc ((x - B2R mn) / s_incr (B2R mn) (B2R mx) (l_num l)) + 1)%Z).
  { intros v x FX FY AV LX OV. unfold angleRawXY. destruct HL as [HS [HC HA]]. destruct (HA (v2y v) (v2x v) x FY FX (angle_off _ _ _ AV LX) AV) as [FA EA]. destruct AV as [[X0 X1] _].
    apply (raw_nearF L ops l RUN CF _ x (4 * c * uro)); auto; [split; auto|unfold uro; lra|apply Rabs_le; lra]. }
  pose proof (IDX p a FP1 FP2 AP LA OA) as UA. pose proof (IDX q b FQ1 FQ2 AQ LBB OB) as UB.
  destruct (beams_spec (B2R mn) (B2R mx) (l_num l) (l_half l) P Q a b) as [OV [ND IN]]; auto; [apply (half_nearF L ops l RUN CF)|].
  set (u := (Ztrunc ((a - B2R mn) / _) + 1)%Z) in *. set (v := (Ztrunc ((b - B2R mn) / _) + 1)%Z) in *.
  destruct (line_flow l p q (rr_make ranges) u v GRD GR UA UB OV) as [lo [hi EQ]]. unfold lrf_renderLine. rewrite EQ. cbn [rr_make rr_ranges]. fold s.
  (* the distances *)
  assert (NP : near (7 * uro * M * len) (v2cross p s) (s_turn P S)).
  { eapply near_le; [apply (cross_near p s (v2x P) (v2y P) (v2x S) (v2y S) 0 M len); auto; try lra|].
    - split; auto. unfold P, s_r2. cbn [v2x]. unfold Rminus. rewrite Rplus_opp_r, Rabs_R0. lra.
    - split; auto. unfold P, s_r2. cbn [v2y]. unfold Rminus. rewrite Rplus_opp_r, Rabs_R0. lra.
    - lra. }
  assert (DST : forall i d, (i < n)%nat -> s_lit (beam i) P Q d -> exists ray, nth_error (l_rays l) i = Some ray /\ let D := ndiv (v2cross p s) (v2cross (vproj2 ray) s) in
    nltb n0 D = true /\ fin (nf32 D) = true /\ Rabs (B2R (nf32 D) - d) <= (4 * c + 30 * INR i + 200) * uro * M / k + d / 16777216).
  { intros i d I0 LIT. destruct (ray_nearF c L HL C ops l RUN CF i I0) as [ray [NR [RX [RY _]]]]. exists ray. split; auto. fold mn mx in RX, RY. fold (beam i) in RX, RY.
    pose proof (i_small l CF i I0) as IB. destruct (ST i d I0 LIT) as [DM KT]. fold S len in KT. set (e := (c + 9 * INR i + 51) * uro) in *.
    assert (E0 : 0 <= e) by (unfold e; apply Rmult_le_pos; lra). assert (E1 : e <= / 10000000). { unfold e. apply Rle_trans with (200000000 * uro); [apply Rmult_le_compat_r; lra|unfold uro; lra]. }
    assert (NT : near ((21 / 10 * e + 7 * uro) * len) (v2cross (vproj2 ray) s) (s_turn (V2 (cos (beam i)) (sin (beam i))) S)).
    { eapply near_le; [apply (cross_near (vproj2 ray) s (cos (beam i)) (sin (beam i)) (v2x S) (v2y S) e 1 len); auto; try lra; [apply cos_1|apply sin_1]|]. right. ring. }
    pose proof (lit_bound _ _ _ _ M LIT (conj BP1 BP2) (conj BQ1 BQ2)) as DU.
    destruct (dist_near _ _ _ _ d e M k len NP NT (lit_turn _ _ _ _ LIT)) as [D1 [D2 D3]]; auto. cbv zeta. split; auto. split; auto. eapply Rle_trans; [exact D3|]. apply Rplus_le_compat_r.
    unfold Rdiv. apply Rmult_le_compat_r; [left; apply Rinv_0_lt_compat; lra|]. apply Rmult_le_compat_r; [lra|]. unfold e. nra. }
  destruct (part_T l p s (line_beams (l_num l) (l_half l) u v) ranges ND) as [ranges' [E [LN' [OUT INN]]]].
  { intros i H. apply IN in H as [I0 [d LIT]]. split; [fold n in I0; lia|]. destruct (DST i d I0 LIT) as [ray [NR [D1 _]]]. exists ray. split; [exact NR|exact D1]. }
  change (@render_part F64 NumF) with (@render_part F64 NumF) in E. rewrite E. cbn [obind rr_ranges]. exists ranges'. split; [reflexivity|]. split; [exact LN'|]. intros i r NR.
  destruct (in_dec Nat.eq_dec i (line_beams (l_num l) (l_half l) u v)) as [Y|Y].
  - left. pose proof Y as Y2. apply IN in Y2 as [I0 [d LIT]]. split; auto. destruct (DST i d I0 LIT) as [ray [NRY [D1 [D2 D3]]]]. exists d, (nf32 (ndiv (v2cross p s) (v2cross (vproj2 ray) s))).
    split; [exact LIT|]. split; [exact D2|]. split; [exact D3|]. apply (INN i ray r Y NRY NR).
  - right. split; [|rewrite OUT by auto; exact NR]. destruct (Nat.le_gt_cases n i); [left; auto|]. right. intros d LIT. apply Y. apply IN. split; eauto.
Qed.
