(** * The laser range finder on doubles: tables, indices, distances *)
From Coq Require Import ZArith NArith List Bool Lia Reals Lra Psatz.
From Flocq Require Import Core BinarySingleNaN.
From Verif Require Import Num NumOrd MathTypes Outcome Mesh Spec SpecRound Laser SpecLaser Libm SpecLibm SpecLaserF
  P_Tac P_Math P_Trig P_Mesh P_MeshGeo P_Round P_OctF P_RayF P_QuatF P_KeyF P_F32 P_Depth P_Libm P_HeightF P_Laser P_Laser2 P_Laser3 P_LaserF.
Import ListNotations.
Local Open Scope R_scope.
Local Notation fin := (is_finite (prec := 53) (emax := 1024)).

(** ** integer parts *)
Lemma trunc_near : forall q x d, Rabs (q - x) < d -> (forall j : Z, d <= Rabs (x - IZR j)) -> Ztrunc q = Ztrunc x.
Proof.
  intros q x d H J. pose proof (Zfloor_lb x) as L. pose proof (Zfloor_ub x) as U. set (f := Zfloor x) in *.
  pose proof (J f) as J1. pose proof (J (f + 1)%Z) as J2. rewrite plus_IZR in J2. rewrite Rabs_pos_eq in J1 by lra. rewrite Rabs_minus_sym, Rabs_pos_eq in J2 by lra. apply Rabs_def2 in H.
  assert (QF : Zfloor q = f) by (apply Zfloor_imp; rewrite plus_IZR; lra).
  assert (D0 : 0 < d) by lra.
  assert (CX : Zceil x = (f + 1)%Z) by (apply Zceil_imp; rewrite plus_IZR; replace (f + 1 - 1)%Z with f by lia; lra).
  assert (CQ : Zceil q = (f + 1)%Z) by (apply Zceil_imp; rewrite plus_IZR; replace (f + 1 - 1)%Z with f by lia; lra).
  destruct (Z_le_gt_dec 0 f) as [G|G].
  - apply IZR_le in G. rewrite !Ztrunc_floor by lra. rewrite QF. reflexivity.
  - assert (IZR f + 1 <= 0) by (rewrite <- plus_IZR; apply IZR_le; lia). rewrite !Ztrunc_ceil by lra. congruence.
Qed.
Lemma touint_F : forall (a : F64) n, touint a = Some n <-> fin a = true /\ Ztrunc (B2R a) = Z.of_N n /\ (Z.of_N n <= 4294967295)%Z.
Proof.
  intros a n. unfold touint.
  assert (G : forall z, ntrunc a = Some z <-> fin a = true /\ Ztrunc (B2R a) = z).
  { intro z. rewrite (ntrunc_key a z). cbn [nkey NumOrdF]. destruct (fin a) eqn:F.
    - rewrite (fkey_finite a F). split; [intros [r [[= <-] ->]]; auto|]. intros [_ <-]. eauto.
    - split; [|intros [Q _]; discriminate Q]. intros [r [K _]]. exfalso. destruct a as [s|[|]| |s m e H]; cbn in K, F; discriminate. }
  destruct (ntrunc a) as [z|] eqn:E.
  - destruct (proj1 (G z) eq_refl) as [F T]. rewrite T. destruct (Z.leb_spec 0 z), (Z.leb_spec z 4294967295); cbn [andb]; (split; [intros [= <-]; rewrite ?Z2N.id by lia; repeat split; auto; lia|]); intros [_ [-> Q]]; try lia.
    f_equal. apply N2Z.id.
  - split; [discriminate|]. intros [F [T _]]. assert (X : None = Some (Z.of_N n)) by (apply G; auto). discriminate X.
Qed.

(** ** the increment *)
Definition kF (num : N) : N := N.max (u32 (num + 4294967295)) 1.
Lemma k_spec : forall num, (0 < num < 2147483648)%N -> (1 <= Z.of_N (kF num) < 2147483648)%Z /\ forall mn mx, s_incr mn mx num = (mx - mn) / IZR (Z.of_N (kF num)).
Proof.
  intros num B. unfold kF, u32. assert (E : ((num + 4294967295) mod 4294967296 = num - 1)%N).
  { replace (num + 4294967295)%N with (num - 1 + 1 * 4294967296)%N by lia. rewrite N.mod_add by lia. apply N.mod_small. lia. }
  rewrite E. split; [lia|]. intros mn mx. unfold s_incr. destruct (N.leb_spec num 1).
  - replace (N.max (num - 1) 1) with 1%N by lia. cbn. field.
  - replace (Z.of_N (N.max (num - 1) 1)) with (Z.of_N num - 1)%Z by lia. rewrite minus_IZR. reflexivity.
Qed.
Lemma incr_near : forall (mn mx : F64) num, s_configF mn mx num -> let I := s_incr (B2R mn) (B2R mx) num in
  near (3 * uro * I) (ndiv (nsub mx mn) (nofZ (Z.of_N (kF num)))) I /\ / 1000000 <= I <= 16 /\ nltb n0 (nsub mx mn) = true.
Proof.
  intros mn mx num [F1 [F2 [B1 [B2 [LT [NB IL]]]]]] I. fold I in IL. destruct (k_spec num NB) as [KB KE].
  apply Rabs_le_inv in B1, B2. set (D := B2R mx - B2R mn). assert (D0 : 0 < D <= 16) by (unfold D; lra).
  destruct (sub_R mx mn F2 F1) as [FS ES]; [apply big100; apply Rabs_le; fold D; lra|]. fold D in ES.
  pose proof (rnd_plus (B2R mx) (- B2R mn) (gen_B2R mx)) as GS. assert (GN : gen (- B2R mn)) by (apply generic_format_opp, gen_B2R). specialize (GS GN). fold D in GS. change (B2R mx + - B2R mn) with D in GS.
  rewrite (Rabs_pos_eq D) in GS by lra. rewrite <- ES in GS. set (s := B2R (nsub mx mn)) in *.
  destruct (ofZ_R (Z.of_N (kF num))) as [FK EK]; [lia|]. set (K := IZR (Z.of_N (kF num))) in *. assert (K1 : 1 <= K) by (apply IZR_le; lia).
  assert (IE : I = D / K) by (unfold I; apply KE). assert (IK : I * K = D) by (rewrite IE; field; lra).
  pose proof u_small as US. pose proof uro_pos as U0. apply Rabs_le_inv in GS.
  assert (I16 : I <= 16) by (apply Rmult_le_reg_r with K; [lra|]; rewrite IK; nra).
  assert (Q : Rabs (s / K - I) <= uro * I).
  { apply Rabs_le. replace (s / K - I) with ((s - D) / K) by (rewrite IE; field; lra). replace (uro * I) with (uro * D / K) by (rewrite IE; field; lra). unfold Rdiv.
    assert (0 < / K) by (apply Rinv_0_lt_compat; lra). split; [replace (- (uro * D * / K)) with ((- (uro * D)) * / K) by ring|]; apply Rmult_le_compat_r; lra. }
  apply Rabs_le_inv in Q. assert (SP : 0 < s / K) by nra.
  destruct (div_R (nsub mx mn) (nofZ (Z.of_N (kF num))) FS) as [FD ED].
  { rewrite EK. lra. } { rewrite EK. fold s. apply big100. apply Rabs_le. nra. }
  rewrite EK in ED. fold s K in ED. split; [|split; [lra|]].
  - split; auto. rewrite ED. pose proof (rnd_err (s / K)) as G. rewrite (Rabs_pos_eq (s / K)) in G by lra. pose proof eta_tiny as ET. apply Rabs_le_inv in G. apply Rabs_le.
    assert (eta <= uro * (I / 1000)) by nra. assert (uro * (s / K) <= uro * (I * (1 + / 1000))) by (apply uro_le; nra). nra.
  - destruct zero_R as [FZ EZ]. rewrite (ltb_R _ _ FZ FS), EZ. apply Rltb_true. fold s. nra.
Qed.
(** a quotient by the increment *)
Lemma quot_near : forall (s g : F64) S I d, near (3 * uro * I) g I -> / 1000000 <= I <= 16 -> near d s S -> Rabs S <= 17 -> d <= / 1000 ->
  near (11 / 10 * d / I + / 10000000) (ndiv s g) (S / I).
Proof.
  intros s g S I d [FG HG] [I0 I1] [FS HS] SB DB. pose proof u_small as US. pose proof uro_pos as U0. pose proof eta_tiny as ET.
  assert (D0 : 0 <= d) by (pose proof (Rabs_pos (B2R s - S)); lra). apply Rabs_le_inv in HG. set (g' := B2R g) in *. set (s' := B2R s) in *.
  assert (GP : 999 / 1000 * I <= g') by nra. assert (GP0 : 0 < g') by lra.
  set (w := d / I). assert (WI : w * I = d) by (unfold w; field; lra). assert (W0 : 0 <= w) by (apply Rmult_le_reg_r with I; lra).
  set (x := Rabs S / I). assert (XI : x * I = Rabs S) by (unfold x; field; lra). pose proof (Rabs_pos S) as S0. assert (X0 : 0 <= x) by (apply Rmult_le_reg_r with I; lra).
  assert (XB : x <= 17000000). { apply Rmult_le_reg_r with I; [lra|]. rewrite XI. lra. }
  assert (WB : w <= 1000). { apply Rmult_le_reg_r with I; [lra|]. rewrite WI. lra. }
  assert (Q : Rabs (s' / g' - S / I) <= 102 / 100 * w + 4 * uro * x).
  { replace (s' / g' - S / I) with (((s' - S) + S * ((I - g') / I)) / g') by (field; lra). unfold Rdiv at 1. rewrite Rabs_mult, (Rabs_pos_eq (/ g')) by (left; apply Rinv_0_lt_compat; auto).
    apply Rmult_le_reg_r with g'; auto. rewrite Rmult_assoc, Rinv_l, Rmult_1_r by lra. eapply Rle_trans; [apply Rabs_triang|]. rewrite Rabs_mult.
    assert (E : Rabs ((I - g') / I) <= 3 * uro). { unfold Rdiv. rewrite Rabs_mult, (Rabs_pos_eq (/ I)) by (left; apply Rinv_0_lt_compat; lra). apply Rmult_le_reg_r with I; [lra|]. rewrite Rmult_assoc, Rinv_l, Rmult_1_r by lra. apply Rabs_le. lra. }
    assert (P : Rabs S * Rabs ((I - g') / I) <= Rabs S * (3 * uro)) by (apply Rmult_le_compat_l; auto). rewrite <- XI in P at 2.
    assert (P2 : (102 / 100 * w + 4 * uro * x) * (999 / 1000 * I) <= (102 / 100 * w + 4 * uro * x) * g') by (apply Rmult_le_compat_l; [nra|auto]).
    assert (P3 : d <= 102 / 100 * w * (999 / 1000 * I)) by (rewrite <- WI; nra).
    assert (P4 : x * I * (3 * uro) <= 4 * uro * x * (999 / 1000 * I)) by (assert (0 <= uro * (x * I)) by (apply Rmult_le_pos; [lra|apply Rmult_le_pos; lra]); nra). lra. }
  assert (SI : Rabs (S / I) = x) by (unfold x, Rdiv; rewrite Rabs_mult, (Rabs_pos_eq (/ I)) by (left; apply Rinv_0_lt_compat; lra); reflexivity).
  assert (UX : uro * x <= / 1000000000000 * 17000000) by (apply Rmult_le_compat; lra).
  assert (UX2 : uro * x <= / 500000000). { apply Rle_trans with (uro * 17000000); [apply uro_le; auto|]. unfold uro. lra. }
  pose proof (Rabs_close _ _ _ _ Q (Req_le _ _ SI)) as ZB.
  destruct (div_R s g FS) as [FD ED]; [fold g'; lra| |].
  { fold s' g'. eapply Rle_trans; [exact ZB|]. apply Rle_trans with (10 ^ 30); [|apply big_ge]. lra. }
  fold s' g' in ED. split; auto. rewrite ED. pose proof (rnd_err (s' / g')) as G.
  assert (GU : uro * Rabs (s' / g') <= uro * 18000000) by (apply uro_le; lra). assert (GU2 : uro * 18000000 <= / 400000000) by (unfold uro; lra).
  replace (rnd (s' / g') - S / I) with ((rnd (s' / g') - s' / g') + (s' / g' - S / I)) by ring. eapply Rle_trans; [apply Rabs_triang|].
  replace (11 / 10 * d / I) with (11 / 10 * w) by (unfold w; field; lra). unfold uro in *. lra.
Qed.

(** ** the tables of a configured sensor *)
Section Tables.
  Context (c : R) (L : libm) (HL : s_libm c L) (C : 0 <= c <= 1000).
  Local Instance trigL : Trig F64 := TrigF L.
  Context (ops : list (lrf_op F64)) (l : lrf F64) (RUN : lrf_run lrf_new ops = Ret l).
  Let mn := l_amin l. Let mx := l_amax l. Let num := l_num l. Let I := s_incr (B2R mn) (B2R mx) num.
  Context (CF : s_configF mn mx num).
  Lemma tbl : tableT l.
  Proof. destruct (runT ops lrf_new l newT RUN) as [_ T]. destruct (incr_near _ _ _ CF) as [_ [_ P]]. apply T; [apply CF|exact P]. Qed.
  Lemma tbl_incr : near (3 * uro * I) (l_incr l) I.
  Proof. destruct tbl as [-> _]. apply (incr_near mn mx num CF). Qed.
  Lemma I_bounds : / 1000000 <= I <= 16. Proof. apply (incr_near mn mx num CF). Qed.
  Lemma beam_in : forall i, (i < N.to_nat num)%nat -> 0 <= INR i * I /\ INR i * I <= B2R mx - B2R mn.
  Proof.
    intros i H. destruct CF as [F1 [F2 [B1 [B2 [LT [NB IL]]]]]]. fold I in IL. split; [apply Rmult_le_pos; [apply pos_INR|lra]|]. unfold I, s_incr. destruct (N.leb_spec num 1).
    - assert (i = 0%nat) by lia. subst. cbn. lra.
    - assert (1 <= IZR (Z.of_N num) - 1). { assert (IZR 2 <= IZR (Z.of_N num)) by (apply IZR_le; lia). lra. }
      apply Rmult_le_reg_r with (IZR (Z.of_N num) - 1); [lra|]. replace (INR i * ((B2R mx - B2R mn) / (IZR (Z.of_N num) - 1)) * (IZR (Z.of_N num) - 1)) with (INR i * (B2R mx - B2R mn)) by (field; lra).
      rewrite (Rmult_comm (INR i)). apply Rmult_le_compat_l; [lra|]. rewrite INR_IZR_INZ. rewrite <- minus_IZR. apply IZR_le. lia.
  Qed.
  Fixpoint acc (i : nat) (a g : F64) : F64 := match i with O => a | S k => nadd (acc k a g) g end.
  Lemma acc_in : forall i a g, acc i (nadd a g) g = nadd (acc i a g) g.
  Proof. induction i as [|i IH]; intros a g; [reflexivity|]. cbn [acc]. rewrite IH. reflexivity. Qed.
  Lemma nth_beams : forall n a (g : F64) i, (i < n)%nat -> nth_error (beam_angles n a g) i = Some (acc i a g).
  Proof.
    induction n as [|n IH]; intros a g i H; [lia|]. cbn [beam_angles]. destruct i as [|i]; [reflexivity|]. cbn [nth_error]. rewrite IH by lia. cbn [acc]. rewrite acc_in. reflexivity.
  Qed.
  Lemma acc_near : forall i, (i < N.to_nat num)%nat -> near ((9 * INR i + 3 * (INR i * I)) * uro) (acc i mn (l_incr l)) (B2R mn + INR i * I).
  Proof.
    pose proof CF as [F1 [F2 [B1 [B2 [LT [NB IL]]]]]]. apply Rabs_le_inv in B1, B2. destruct tbl_incr as [FG HG]. destruct I_bounds as [I0 I1]. pose proof uro_pos as U0. pose proof u_small as US.
    induction i as [|i IH]; intros H.
    - cbn [acc INR]. split; auto. rewrite !Rmult_0_l, Rplus_0_r. unfold Rminus. rewrite Rplus_opp_r, Rabs_R0. lra.
    - specialize (IH ltac:(lia)). destruct IH as [FA HA]. cbn [acc]. destruct (beam_in (S i) H) as [P1 P2]. rewrite S_INR in *. pose proof (pos_INR i) as IP.
      set (a := acc i mn (l_incr l)) in *. set (x := INR i * I) in *. replace ((INR i + 1) * I) with (x + I) in * by (unfold x; ring).
      assert (X0 : 0 <= x) by (apply Rmult_le_pos; lra). assert (IB : INR i <= 16000000) by (unfold x in P2; nra).
      assert (EB : (9 * INR i + 3 * x) * uro <= / 1000). { apply Rle_trans with (200000000 * uro); [apply Rmult_le_compat_r; lra|unfold uro; lra]. }
      apply Rabs_le_inv in HA, HG. assert (GB : 3 * uro * I <= / 1000) by (unfold uro; lra).
      assert (AB : Rabs (B2R a + B2R (l_incr l)) <= 9) by (apply Rabs_le; lra).
      destruct (add_R a (l_incr l) FA FG) as [FS ES]; [apply big100; lra|]. split; auto. rewrite ES. pose proof (rnd_plus _ _ (gen_B2R a) (gen_B2R (l_incr l))) as G.
      assert (UB : uro * Rabs (B2R a + B2R (l_incr l)) <= uro * 9) by (apply uro_le; auto). apply Rabs_le_inv in G. apply Rabs_le. lra.
  Qed.
  Lemma beam_nearF : forall i, (i < N.to_nat num)%nat -> exists a, nth_error (l_angles l) i = Some a /\ near ((9 * INR i + 48) * uro) a (s_beam (B2R mn) (B2R mx) num i).
  Proof.
    intros i H. destruct tbl as [E1 [E2 _]]. exists (acc i mn (l_incr l)). split; [rewrite E2; apply nth_beams; auto|]. eapply near_le; [apply acc_near; auto|].
    destruct (beam_in i H). pose proof CF as [_ [_ [B1 [B2 _]]]]. apply Rabs_le_inv in B1, B2. pose proof uro_pos. apply Rmult_le_compat_r; lra.
  Qed.
  Lemma i_small : forall i, (i < N.to_nat num)%nat -> 0 <= INR i <= 16000000.
  Proof. intros i H. destruct (beam_in i H) as [P1 P2]. destruct I_bounds. pose proof CF as [_ [_ [B1 [B2 _]]]]. apply Rabs_le_inv in B1, B2. pose proof (pos_INR i). split; auto. nra. Qed.
  Lemma one_mul : forall e (x : F64) X, near e x X -> Rabs X <= 1 -> e <= / 1000 -> near (e + 3 * uro) (nmul x n1) X.
  Proof.
    intros e x X N B E. destruct (ofZ_R 1 eq_refl) as [FO EO]. pose proof (scaled_near e x X n1 N B E FO) as G. change (B2R n1) with (B2R (nofZ 1 : F64)) in G. rewrite EO in G. rewrite Rabs_R1, !Rmult_1_r in G.
    eapply near_le; [apply G|]. { pose proof (big100 8 ltac:(lra)). lra. } pose proof eta_u. pose proof uro_pos. lra.
  Qed.
  Lemma ray_nearF : forall i, (i < N.to_nat num)%nat -> exists r, nth_error (l_rays l) i = Some r /\
    near ((c + 9 * INR i + 51) * uro) (vx r) (cos (s_beam (B2R mn) (B2R mx) num i)) /\ near ((c + 9 * INR i + 51) * uro) (vy r) (sin (s_beam (B2R mn) (B2R mx) num i)) /\ near 0 (vz r) 0.
  Proof.
    intros i H. destruct (beam_nearF i H) as [a [NA [FA HA]]]. destruct tbl as [_ [_ [E3 _]]]. destruct HL as [LS [LC _]]. destruct (LS a FA) as [SF SH]. destruct (LC a FA) as [CF' CH].
    set (b := s_beam _ _ _ _) in *. pose proof (i_small i H) as IB. pose proof uro_pos as U0.
    exists (polarTo2D a n1). split; [rewrite E3, nth_error_map, NA; reflexivity|]. unfold polarTo2D, vscale. cbn [vx vy vz nsin ncos TrigF trigL].
    assert (EB : (c + 9 * INR i + 48) * uro <= / 1000). { apply Rle_trans with (200000000 * uro); [apply Rmult_le_compat_r; lra|unfold uro; lra]. }
    assert (NC : near ((c + 9 * INR i + 48) * uro) (lm_cos L a) (cos b)).
    { split; auto. replace (B2R (lm_cos L a) - cos b) with ((B2R (lm_cos L a) - cos (B2R a)) + (cos (B2R a) - cos b)) by ring. eapply Rle_trans; [apply Rabs_triang|]. pose proof (cos_lip (B2R a) b). lra. }
    assert (NS : near ((c + 9 * INR i + 48) * uro) (lm_sin L a) (sin b)).
    { split; auto. replace (B2R (lm_sin L a) - sin b) with ((B2R (lm_sin L a) - sin (B2R a)) + (sin (B2R a) - sin b)) by ring. eapply Rle_trans; [apply Rabs_triang|]. pose proof (sin_lip (B2R a) b). lra. }
    split; [|split].
    - eapply near_le; [apply (one_mul _ _ _ NC (cos_1 b) EB)|lra].
    - eapply near_le; [apply (one_mul _ _ _ NS (sin_1 b) EB)|lra].
    - destruct zero_R as [FZ EZ]. destruct (ofZ_R 1 eq_refl) as [FO EO]. destruct (mul_R n0 n1 FZ FO) as [FM EM]; [rewrite EZ, Rmult_0_l, Rabs_R0; apply Rlt_le, big_pos|].
      split; auto. rewrite EM, EZ, Rmult_0_l. rewrite rnd_gen by apply gen_0. rewrite Rminus_0_r, Rabs_R0. apply Rle_refl.
  Qed.
  Lemma half_nearF : PI / I - 2 < IZR (Z.of_N (l_half l)) <= PI / I + 1.
  Proof.
    destruct tbl as [_ [_ [_ E4]]]. apply touint_F in E4 as [FD [T _]]. destruct I_bounds as [I0 I1]. pose proof PI_4 as P4. pose proof PI_RGT_0 as P0.
    destruct (quot_near f_pi (l_incr l) PI I (2 * uro) tbl_incr I_bounds f_pi_near) as [_ H]; [apply Rabs_le; lra|unfold uro; lra|].
    change (@npi F64 trigL) with f_pi in *. set (z := B2R (ndiv f_pi (l_incr l))) in *.
    assert (S : 11 / 10 * (2 * uro) / I <= / 10000000). { apply Rmult_le_reg_r with I; [lra|]. unfold Rdiv. rewrite Rmult_assoc, Rinv_l by lra. unfold uro. lra. }
    apply Rabs_le_inv in H. assert (Q : / 16 <= PI / I). { apply Rmult_le_reg_r with I; [lra|]. unfold Rdiv. rewrite Rmult_assoc, Rinv_l by lra. pose proof PI2_3_2. lra. }
    rewrite <- T. rewrite Ztrunc_floor by lra. pose proof (Zfloor_lb z). pose proof (Zfloor_ub z). lra.
  Qed.
  (** the index of a direction *)
  Lemma raw_nearF : forall (a' : F64) a e, near e a' a -> e <= / 2000000000000 -> Rabs a <= 8 ->
    (forall j : Z, I / 1000000 <= Rabs (a - (B2R mn + IZR j * I))) -> angleRaw l a' = Ret (Ztrunc ((a - B2R mn) / I) + 1)%Z.
  Proof.
    intros a' a e [FA HA] EB AB OFF. destruct I_bounds as [I0 I1]. pose proof CF as [F1 [F2 [B1 [B2 _]]]]. apply Rabs_le_inv in B1, B2, AB. assert (E0 : 0 <= e) by (pose proof (Rabs_pos (B2R a' - a)); lra).
    pose proof HA as HA2. apply Rabs_le_inv in HA2.
    assert (SB : Rabs (B2R a' - B2R mn) <= 17) by (apply Rabs_le; lra).
    destruct (sub_R a' mn FA F1) as [FS ES]; [apply big100; lra|]. pose proof (rnd_plus (B2R a') (- B2R mn) (gen_B2R a') (generic_format_opp _ _ _ (gen_B2R mn))) as GS. change (B2R a' + - B2R mn) with (B2R a' - B2R mn) in GS. rewrite <- ES in GS.
    assert (NS : near (e + 17 * uro) (nsub a' mn) (a - B2R mn)).
    { split; auto. replace (B2R (nsub a' mn) - (a - B2R mn)) with ((B2R (nsub a' mn) - (B2R a' - B2R mn)) + (B2R a' - a)) by ring. eapply Rle_trans; [apply Rabs_triang|]. assert (uro * Rabs (B2R a' - B2R mn) <= uro * 17) by (apply uro_le; auto). lra. }
    destruct (quot_near _ _ _ _ _ tbl_incr I_bounds NS) as [FQ HQ]; [apply Rabs_le; lra|unfold uro; lra|].
    set (x := (a - B2R mn) / I) in *. set (q := B2R (ndiv (nsub a' mn) (l_incr l))) in *.
    assert (S : 11 / 10 * (e + 17 * uro) / I <= 6 / 10000000). { apply Rmult_le_reg_r with I; [lra|]. unfold Rdiv. rewrite Rmult_assoc, Rinv_l by lra. unfold uro. lra. }
    assert (T : Ztrunc q = Ztrunc x).
    { apply trunc_near with (/ 1000000); [lra|]. intros j. specialize (OFF j). apply Rmult_le_reg_r with I; [lra|]. rewrite <- (Rabs_pos_eq I) at 2 by lra. rewrite <- Rabs_mult.
      replace ((x - IZR j) * I) with (a - (B2R mn + IZR j * I)) by (unfold x; field; lra). lra. }
    assert (XB : - 17000000 <= x <= 17000000). { split; apply Rmult_le_reg_r with I; try lra; unfold x; replace ((a - B2R mn) / I * I) with (a - B2R mn) by (field; lra); lra. }
    pose proof (raw_close x) as RC. rewrite plus_IZR in RC.
    assert (ZL : (-17000002 <= Ztrunc x)%Z) by (apply le_IZR; lra). assert (ZU : (Ztrunc x <= 17000002)%Z) by (apply le_IZR; lra).
    unfold angleRaw. fold mn. rewrite (proj2 (toint_F (ndiv (nsub a' mn) (l_incr l)) (Ztrunc x))) by (split; [auto|split; [exact T|unfold int_range; lia]]). cbn [or_ub obind].
    destruct (Z.eqb_spec (Ztrunc x) 2147483647); [lia|reflexivity].
  Qed.
End Tables.
