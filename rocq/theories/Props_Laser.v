(** * Properties C50-C55, C72, C73: the laser range finder *)
From Coq Require Import ZArith NArith List Bool Lia Reals Lra Permutation.
From Flocq Require Import Core.Raux.
From Verif Require Import Num NumOrd MathTypes Outcome Mesh Spec P_Tac P_Math P_Trig P_Mesh P_MeshGeo P_Float Laser SpecLaser P_Laser P_Laser2 P_Laser3 P_Laser4 P_Laser5 Props_Mesh.
Import ListNotations.
Local Open Scope R_scope.

(** ** C50 *)
(** parameters after a history: the last values set *)
Definition last_angles (ops : list (lrf_op R)) : R * R := fold_left (fun acc o => match o with LAngles mn mx => (mn, mx) | _ => acc end) ops (0, 0).
Definition last_beams (ops : list (lrf_op R)) : N := fold_left (fun acc o => match o with LBeams n => n | _ => acc end) ops 0%N.
Definition last_range (ops : list (lrf_op R)) : R * R := fold_left (fun acc o => match o with LRange mn mx => (mn, mx) | _ => acc end) ops (0, 0).
Lemma calc_params : forall l l' : lrf R, calculateRays l = Ret l' -> (l_amin l', l_amax l') = (l_amin l, l_amax l) /\ l_num l' = l_num l /\ (l_rmin l', l_rmax l') = (l_rmin l, l_rmax l).
Proof. intros l l' H. unfold calculateRays in H. destruct (or_ub (touint _)) as [h| | |]; try discriminate. injection H as <-. auto. Qed.
Lemma run_params : forall ops (l l' : lrf R), (forall n, In (LBeams n) ops -> (n < 4294967296)%N) -> lrf_run l ops = Ret l' ->
  (l_amin l', l_amax l') = fold_left (fun acc o => match o with LAngles mn mx => (mn, mx) | _ => acc end) ops (l_amin l, l_amax l) /\
  l_num l' = fold_left (fun acc o => match o with LBeams n => n | _ => acc end) ops (l_num l) /\
  (l_rmin l', l_rmax l') = fold_left (fun acc o => match o with LRange mn mx => (mn, mx) | _ => acc end) ops (l_rmin l, l_rmax l).
Proof.
  induction ops as [|o ops IH]; intros l l' U H; [injection H as <-; auto|]. cbn [lrf_run] in H. destruct (lrf_step l o) as [l1| | |] eqn:E; try discriminate.
  cbn [obind] in H. assert (U' : forall n, In (LBeams n) ops -> (n < 4294967296)%N) by (intros; apply U; right; auto). pose proof (IH l1 l' U' H) as [A [B C]].
  destruct o as [mn mx|n|mn mx]; cbn [lrf_step] in E; cbn [fold_left].
  - unfold setAngleLimits in E. destruct (_ && _)%bool.
    + apply calc_params in E as [E1 [E2 E3]]. cbn in E1, E2, E3. rewrite E1 in A. rewrite E2 in B. rewrite E3 in C. auto.
    + injection E as <-. auto.
  - unfold setNumBeams in E. assert (UN : u32 n = n) by (apply u32_small; apply U; left; auto). rewrite UN in E. destruct (_ && _)%bool.
    + apply calc_params in E as [E1 [E2 E3]]. cbn in E1, E2, E3. rewrite E1 in A. rewrite E2 in B. rewrite E3 in C. auto.
    + injection E as <-. auto.
  - injection E as <-. auto.
Qed.
Theorem C50_parameters : forall ops (l : lrf R), (forall n, In (LBeams n) ops -> (n < 4294967296)%N) -> lrf_run lrf_new ops = Ret l ->
  (l_amin l, l_amax l) = last_angles ops /\ l_num l = last_beams ops /\ (l_rmin l, l_rmax l) = last_range ops.
Proof. intros ops l U H. apply (run_params ops lrf_new l U H). Qed.
Theorem C50_table : forall ops (l : lrf R), lrf_run lrf_new ops = Ret l -> (0 < l_num l)%N -> l_amin l < l_amax l ->
  length (l_angles l) = N.to_nat (l_num l) /\ length (l_rays l) = N.to_nat (l_num l) /\
  l_incr l = s_incr (l_amin l) (l_amax l) (l_num l) /\
  (forall i, (i < N.to_nat (l_num l))%nat -> let a := s_beam (l_amin l) (l_amax l) (l_num l) i in
     nth_error (l_angles l) i = Some a /\ nth_error (l_rays l) i = Some (V3 (cos a) (sin a) 0)) /\
  nth_error (l_angles l) 0 = Some (l_amin l) /\
  ((2 <= l_num l)%N -> nth_error (l_angles l) (N.to_nat (l_num l) - 1) = Some (l_amax l)).
Proof.
  intros ops l H P A. destruct (lrf_run_inv _ _ _ lrf_new_inv H) as [NB I]. specialize (I P ltac:(lra)). pose proof I as [I1 [I2 [I3 I4]]].
  assert (AT : forall i, (i < N.to_nat (l_num l))%nat -> nth_error (l_angles l) i = Some (s_beam (l_amin l) (l_amax l) (l_num l) i)).
  { intros i Hi. rewrite I2, nth_error_map, (nth_error_nth' _ 0%nat) by (rewrite seq_length; auto). rewrite seq_nth by auto. reflexivity. }
  repeat split; auto.
  - rewrite I2, map_length, seq_length. auto.
  - rewrite I3, map_length, I2, map_length, seq_length. auto.
  - apply ray_at; auto.
  - rewrite AT by lia. f_equal. unfold s_beam. cbn. ring.
  - intros N2. rewrite AT by lia. f_equal. unfold s_beam, s_incr. destruct (N.leb_spec (l_num l) 1); [lia|].
    replace (INR (N.to_nat (l_num l) - 1)) with (IZR (Z.of_N (l_num l)) - 1).
    + assert (IZR 2 <= IZR (Z.of_N (l_num l))) by (apply IZR_le; lia). field. lra.
    + rewrite INR_IZR_INZ, <- minus_IZR. f_equal. lia.
Qed.
(** a valid configuration whose half circle has fewer than 2^32 increments is accepted, from every state *)
Theorem C50_returns : forall (l : lrf R) mn mx n, mn < mx -> (0 < n < 4294967296)%N -> PI / s_incr mn mx n < IZR 4294967296 ->
  (l_num l = n -> exists l', lrf_step l (LAngles mn mx) = Ret l') /\ (l_amin l = mn -> l_amax l = mx -> exists l', lrf_step l (LBeams n) = Ret l').
Proof.
  intros l mn mx n A B C. split.
  - intros <-. cbn [lrf_step]. unfold setAngleLimits. destruct (_ && _)%bool; [|eauto]. apply calc_ret; cbn; auto; lra.
  - intros <- <-. cbn [lrf_step]. unfold setNumBeams. rewrite u32_small by lia. destruct (_ && _)%bool; [|eauto]. apply calc_ret; cbn; auto; lra.
Qed.
(* a configured sensor *)
Lemma configured : forall mn mx n, mn < mx -> (0 < n < 4294967296)%N -> PI / s_incr mn mx n < IZR 4294967296 ->
  exists l, lrf_run lrf_new [LBeams n; LAngles mn mx] = Ret l /\ l_amin l = mn /\ l_amax l = mx /\ l_num l = n /\ l_rmax l = 0.
Proof.
  intros mn mx n A B C. cbn [lrf_run].
  assert (E : lrf_step lrf_new (LBeams n) = Ret (LRF 0 0 0 0 n [] [] 0 0)).
  { cbn [lrf_step]. unfold setNumBeams. rewrite u32_small by lia. cbn [lrf_new l_amax l_amin l_num l_rmin l_rmax l_angles l_rays l_incr l_half]. unR.
    assert (G : Rltb 0 (0 - 0) = false) by (apply Rltb_false; lra). rewrite G, andb_false_r. reflexivity. }
  rewrite E. cbn [obind]. destruct (proj1 (C50_returns (LRF 0 0 0 0 n [] [] 0 0) mn mx n A B C) eq_refl) as [l L]. rewrite L. cbn [obind]. exists l. split; auto.
  assert (R2 : lrf_run (LRF 0 0 0 0 n [] [] 0 0) [LAngles mn mx] = Ret l) by (cbn [lrf_run]; rewrite L; reflexivity).
  apply run_params in R2; [|intros k [H|[]]; discriminate]. cbn in R2. destruct R2 as [X [Y Z]]. injection X as X1 X2. injection Z as Z1 Z2. auto.
Qed.
Example C50_nonvacuous : exists l : lrf R, lrf_run lrf_new [LBeams 5; LAngles (-1) 1] = Ret l /\ (0 < l_num l)%N /\ l_amin l < l_amax l /\ (2 <= l_num l)%N.
Proof.
  destruct (configured (-1) 1 5) as [l [E [A [B [C _]]]]]; try lra; try lia.
  - unfold s_incr. cbn. pose proof PI_4. lra.
  - exists l. rewrite A, B, C. repeat split; auto; try lia; lra.
Qed.
Print Assumptions C50_parameters.
Print Assumptions C50_table.
Print Assumptions C50_returns.

(** ** C73: the advertised number of beams and the stored ray directions *)
(** the two agree after every history that ends in a valid configuration (C50); otherwise they may not *)
Theorem C73_agree_partial : forall ops (l : lrf R), lrf_run lrf_new ops = Ret l -> (0 < l_num l)%N -> l_amin l < l_amax l ->
  length (l_rays l) = N.to_nat (l_num l) /\ forall i r, (i < l_num l)%N -> exists v, rangeToPoint l r i = Ret v.
Proof.
  intros ops l H P A. destruct (C50_table ops l H P A) as [_ [B [_ [C _]]]]. split; auto. intros i r Hi. unfold rangeToPoint.
  destruct (C (N.to_nat i)) as [_ E]; [lia|]. rewrite E. cbn. eauto.
Qed.
(** reducing the limits to an empty interval and then asking for more beams leaves too few directions: reading one of the beams
    is undefined behaviour *)
Theorem C73_refuted : exists ops (l : lrf R), lrf_run lrf_new ops = Ret l /\ (length (l_rays l) < N.to_nat (l_num l))%nat /\
  exists i, (i < l_num l)%N /\ forall r, rangeToPoint l r i = UB.
Proof.
  destruct (configured (-1) 1 5) as [l [E [A [B [C _]]]]]; try lra; try lia.
  { unfold s_incr. cbn. pose proof PI_4. lra. }
  destruct (C50_table _ _ E) as [_ [LR _]]; [rewrite C; lia|rewrite A, B; lra|]. rewrite C in LR. cbn in LR.
  exists [LBeams 5; LAngles (-1) 1; LAngles 1 1; LBeams 9]. 
  assert (S1 : lrf_step l (LAngles 1 1) = Ret (LRF 1 1 (l_rmin l) (l_rmax l) 5 (l_angles l) (l_rays l) (l_incr l) (l_half l))).
  { cbn [lrf_step]. unfold setAngleLimits. cbn [l_num l_amax l_amin]. rewrite C. unR. assert (G : Rltb 0 (1 - 1) = false) by (apply Rltb_false; lra). rewrite G, andb_false_r. reflexivity. }
  assert (S2 : lrf_step (LRF 1 1 (l_rmin l) (l_rmax l) 5 (l_angles l) (l_rays l) (l_incr l) (l_half l)) (LBeams 9) = Ret (LRF 1 1 (l_rmin l) (l_rmax l) 9 (l_angles l) (l_rays l) (l_incr l) (l_half l))).
  { cbn [lrf_step]. unfold setNumBeams. change (u32 9) with 9%N. cbn [l_num l_amax l_amin]. unR. assert (G : Rltb 0 (1 - 1) = false) by (apply Rltb_false; lra). rewrite G, andb_false_r. reflexivity. }
  exists (LRF 1 1 (l_rmin l) (l_rmax l) 9 (l_angles l) (l_rays l) (l_incr l) (l_half l)). split; [|split].
  - cbn [lrf_run] in E |- *. destruct (lrf_step lrf_new (LBeams 5)) as [l1| | |]; try discriminate. cbn [obind] in E |- *. 
    destruct (lrf_step l1 (LAngles (-1) 1)) as [l2| | |]; try discriminate. cbn [obind] in E |- *. injection E as ->. rewrite S1. cbn [obind]. rewrite S2. reflexivity.
  - cbn. rewrite LR. cbn. lia.
  - exists 7%N. split; [cbn; lia|]. intros r. unfold rangeToPoint. cbn [l_rays]. rewrite (proj2 (nth_error_None (l_rays l) (N.to_nat 7))); [reflexivity|]. rewrite LR. cbn. lia.
Qed.
Print Assumptions C73_agree_partial.
Print Assumptions C73_refuted.

(** ** C51 *)
Theorem C51_partial : forall ops (l : lrf R) a, lrf_run lrf_new ops = Ret l -> (0 < l_num l)%N -> l_amin l < l_amax l ->
  s_clear (l_amin l) (l_amax l) (l_num l) a -> in_int ((a - l_amin l) / s_incr (l_amin l) (l_amax l) (l_num l)) ->
  exists k, getAngleUpperIndex l a = Ret k /\ s_first_above (s_beam (l_amin l) (l_amax l) (l_num l)) (N.to_nat (l_num l)) a (N.to_nat k).
Proof.
  intros ops l a H P A CL IN. destruct (lrf_run_inv _ _ _ lrf_new_inv H) as [NB I]. specialize (I P ltac:(lra)). pose proof I as [I1 _].
  unfold getAngleUpperIndex. rewrite <- I1 in IN. rewrite raw_R by auto. cbn [obind]. eexists. split; [reflexivity|].
  pose proof (incr_pos (l_amin l) (l_amax l) (l_num l) ltac:(lra)) as IP. rewrite <- I1 in IP.
  assert (RS : forall k, (Ztrunc ((a - l_amin l) / l_incr l) + 1 <= Z.of_nat k)%Z <-> a < s_beam (l_amin l) (l_amax l) (l_num l) k).
  { intros k. unfold s_beam. rewrite <- I1. apply raw_spec; auto. unfold s_clear in CL. rewrite <- I1 in CL. auto. }
  set (z := (Ztrunc ((a - l_amin l) / l_incr l) + 1)%Z) in *. split; [lia|]. split.
  - intros i Hi. assert (N : ~ (z <= Z.of_nat i)%Z) by lia. rewrite RS in N. lra.
  - intros Hk. apply RS. lia.
Qed.
(** the overload taking a point looks up the direction of the point *)
Theorem C51_point : forall (l : lrf R) x y a, s_angle (V2 x y) a -> getAngleUpperIndexXY l x y = getAngleUpperIndex l a.
Proof. intros l x y a H. apply angle_s_ang in H as [<- _]. reflexivity. Qed.
(** angles less than one increment below the first beam are sent to index 1 instead of 0, in every configuration *)
Lemma gap_one : forall (l : lrf R) a, table_ok l -> (0 < l_num l)%N -> l_amin l < l_amax l ->
  l_amin l - l_incr l < a < l_amin l -> getAngleUpperIndex l a = Ret 1%N.
Proof.
  intros l a [I1 _] P A G. pose proof (incr_pos (l_amin l) (l_amax l) (l_num l) ltac:(lra)) as IP. rewrite <- I1 in IP.
  set (x := (a - l_amin l) / l_incr l). assert (E : x * l_incr l = a - l_amin l) by (unfold x; field; lra).
  assert (XB : -1 < x < 0). { split; apply Rmult_lt_reg_r with (l_incr l); auto; rewrite E; lra. }
  unfold getAngleUpperIndex. rewrite raw_R by (fold x; unfold in_int; lra). fold x.
  assert (T : Ztrunc x = 0%Z). { rewrite Ztrunc_ceil by lra. apply Zceil_imp. cbn. lra. }
  rewrite T. cbn. f_equal. lia.
Qed.
Theorem C51_refuted : exists ops (l : lrf R) a k, lrf_run lrf_new ops = Ret l /\ (0 < l_num l)%N /\ l_amin l < l_amax l /\
  in_int ((a - l_amin l) / s_incr (l_amin l) (l_amax l) (l_num l)) /\
  getAngleUpperIndex l a = Ret k /\ ~ s_first_above (s_beam (l_amin l) (l_amax l) (l_num l)) (N.to_nat (l_num l)) a (N.to_nat k).
Proof.
  destruct (configured (-1) 1 5) as [l [E [A [B [C _]]]]]; try lra; try lia.
  { unfold s_incr. cbn. pose proof PI_4. lra. }
  exists [LBeams 5; LAngles (-1) 1], l, (-1 - 1/4), 1%N. split; auto. split; [rewrite C; lia|]. split; [rewrite A, B; lra|]. split; [|split].
  - rewrite A, B, C. unfold s_incr, in_int. cbn. lra.
  - destruct (lrf_run_inv _ _ _ lrf_new_inv E) as [NB I]. apply gap_one; [apply I; [rewrite C; lia|rewrite A, B; lra]|rewrite C; lia|rewrite A, B; lra|].
    destruct I as [I1 _]; [rewrite C; lia|rewrite A, B; lra|]. rewrite I1, A, B, C. unfold s_incr. cbn. lra.
  - intros [_ [F _]]. specialize (F 0%nat ltac:(cbn; lia)). unfold s_beam in F. rewrite A, B, C in F. cbn in F. lra.
Qed.
Example C51_nonvacuous : exists (l : lrf R), lrf_run lrf_new [LBeams 5; LAngles (-1) 1] = Ret l /\
  s_clear (l_amin l) (l_amax l) (l_num l) (1/4) /\ in_int ((1/4 - l_amin l) / s_incr (l_amin l) (l_amax l) (l_num l)).
Proof.
  destruct (configured (-1) 1 5) as [l [E [A [B [C _]]]]]; try lra; try lia.
  { unfold s_incr. cbn. pose proof PI_4. lra. }
  exists l. split; auto. rewrite A, B, C. unfold s_clear, in_int, s_incr. cbn. lra.
Qed.
Print Assumptions C51_partial.
Print Assumptions C51_point.
Print Assumptions C51_refuted.

(** ** C52 (every number type with IEEE-style comparisons: reals and doubles) *)
Theorem C52_nearest : forall (T : Type) (NT : Num T) (NO : NumOrd T) ps ranges ranges' i (r r' : T),
  renderPoints ranges ps = Ret ranges' -> (forall j d, In (j, d) ps -> real_range d) ->
  nth_error ranges i = Some r -> nth_error ranges' i = Some r' ->
  (r' = r \/ (In (i, r') ps /\ (neqb r n0 = true \/ nltb r' r = true))) /\
  (forall d, In (i, d) ps -> nltb d r' = false) /\ ((exists d, In (i, d) ps) -> neqb r' n0 = false) /\ (neqb r n0 = false -> nltb r r' = false).
Proof. intros T NT NO ps ranges ranges' i r r'. apply points_spec. Qed.
Theorem C52_untouched : forall (T : Type) (NT : Num T) (NO : NumOrd T) ps ranges ranges' i,
  @renderPoints T NT ranges ps = Ret ranges' -> (forall d, ~ In (i, d) ps) -> length ranges' = length ranges /\ nth_error ranges' i = nth_error ranges i.
Proof.
  intros T NT NO ps. induction ps as [|[j d] ps IH]; intros ranges ranges' i H U; [injection H as <-; auto|]. cbn [renderPoints] in H.
  destruct (renderPoint ranges j d) as [rs| | |] eqn:E; try discriminate. cbn [obind] in H.
  destruct (nth_error ranges j) as [q|] eqn:NJ; [|rewrite point_ub in E by auto; discriminate].
  destruct (point_spec ranges j d q NJ) as [rs' [E' [L [_ O]]]]. assert (rs' = rs) by congruence. subst rs'.
  destruct (IH rs ranges' i H) as [A B]; [intros e I; apply (U e); right; auto|]. split; [congruence|]. rewrite B. apply O. intros ->. apply (U d). left; auto.
Qed.
(** the order does not matter: the two results are equal as numbers *)
Theorem C52_order : forall (T : Type) (NT : Num T) (NO : NumOrd T) ps ps' ranges r1 r2 i (a b : T),
  Permutation ps ps' -> (forall j d, In (j, d) ps -> real_range d) -> renderPoints ranges ps = Ret r1 -> renderPoints ranges ps' = Ret r2 ->
  nth_error r1 i = Some a -> nth_error r2 i = Some b -> a = b \/ neqb a b = true.
Proof.
  intros T NT NO ps ps' ranges r1 r2 i a b P RD E1 E2 N1 N2.
  assert (RD' : forall j d, In (j, d) ps' -> real_range d) by (intros j d I; apply (RD j); eapply Permutation_in; [symmetry; exact P|auto]).
  destruct (nth_error ranges i) as [r|] eqn:NR.
  2:{ exfalso. apply nth_error_None in NR. assert (i < length r1)%nat by (apply nth_error_Some; congruence). rewrite (points_length _ _ _ E1) in H. lia. }
  destruct (points_spec ps ranges r1 i r a E1 RD NR N1) as [A1 [B1 [C1 D1]]]. destruct (points_spec ps' ranges r2 i r b E2 RD' NR N2) as [A2 [B2 [C2 D2]]].
  assert (EQ : nltb a b = false -> nltb b a = false -> neqb a a = true -> neqb b b = true -> neqb a b = true).
  { intros L1 L2 K1 K2. apply neqb_key in K1 as [x [X _]]. apply neqb_key in K2 as [y [Y _]]. apply neqb_key. destruct (ext_total x y) as [H|[H|H]].
    - assert (nltb a b = true) by (apply nltb_key; eauto). congruence.
    - subst. eauto.
    - assert (nltb b a = true) by (apply nltb_key; eauto). congruence. }
  assert (SYM : forall d, In (i, d) ps <-> In (i, d) ps') by (intros d; split; apply Permutation_in; [auto|apply Permutation_sym; auto]).
  destruct A1 as [-> |[I1 Z1]], A2 as [-> |[I2 Z2]]; auto.
  - right. assert (NZ : neqb r n0 = false) by (apply C1; exists b; apply SYM; auto). destruct Z2 as [Z2|Z2]; [congruence|].
    exfalso. apply SYM in I2. rewrite (B1 b I2) in Z2. discriminate.
  - right. assert (NZ : neqb r n0 = false) by (apply C2; exists a; apply SYM; auto). destruct Z1 as [Z1|Z1]; [congruence|].
    exfalso. apply SYM in I1. rewrite (B2 a I1) in Z1. discriminate.
  - right. apply EQ; [apply B2; apply SYM; auto|apply B1; apply SYM; auto|apply (RD i a I1)|apply (RD' i b I2)].
Qed.
(** every beam index inside the range vector is safe, every other one is undefined behaviour *)
Theorem C52_bounds : forall (T : Type) (NT : Num T) (NO : NumOrd T) ps (ranges : list T),
  ((forall j d, In (j, d) ps -> (j < length ranges)%nat) -> exists ranges', renderPoints ranges ps = Ret ranges') /\
  (forall j d, In (j, d) ps -> (length ranges <= j)%nat -> renderPoints ranges ps = UB).
Proof. intros T NT NO ps ranges. split; [apply points_ret|apply points_ub]. Qed.
Example C52_nonvacuous : let f := f64_of_Z in let ps := [(0%nat, f 3%Z); (1%nat, f 7%Z); (0%nat, f 2%Z); (0%nat, f 5%Z); (1%nat, f (-4)%Z)] in
  (forall j d, In (j, d) ps -> real_range d) /\
  oret_chk (renderPoints [f 0%Z; f 6%Z; f 9%Z] ps) (fun r => match r with [a; b; c] => (neqb a (f 2%Z) && neqb b (f (-4)%Z) && neqb c (f 9%Z))%bool | _ => false end) = true.
Proof.
  cbv zeta. split; [|vm_compute; reflexivity]. intros j d H. cbn [In] in H.
  destruct H as [H|[H|[H|[H|[H|[]]]]]]; apply (f_equal snd) in H; cbn [snd] in H; rewrite <- H; split; vm_compute; reflexivity.
Qed.
Print Assumptions C52_nearest.
Print Assumptions C52_untouched.
Print Assumptions C52_order.
Print Assumptions C52_bounds.

(** ** C53 *)
Lemma history_config : forall ops (l : lrf R), lrf_run lrf_new ops = Ret l -> s_config (l_amin l) (l_amax l) (l_num l) -> config_ok l.
Proof.
  intros ops l H [A [B [C D]]]. destruct (lrf_run_inv _ _ _ lrf_new_inv H) as [NB I]. specialize (I ltac:(lia) ltac:(lra)). split; auto. split; auto. split; auto. split; auto. destruct I as [-> _]. auto.
Qed.
Lemma fair_ok : forall l p q, config_ok l -> s_fair (l_amin l) (l_amax l) (l_num l) p q -> exists a b, s_angle p a /\ s_angle q b /\ dir_ok l a /\ dir_ok l b /\ 3 * l_incr l <= Rabs (Rabs (b - a) - PI).
Proof. intros l p q [[I _] _] [a [b F]]. exists a, b. unfold dir_ok. rewrite I. exact F. Qed.
Theorem C53_partial : forall ops (l : lrf R) p q ranges, lrf_run lrf_new ops = Ret l -> s_config (l_amin l) (l_amax l) (l_num l) ->
  s_fair (l_amin l) (l_amax l) (l_num l) p q -> s_within (l_rmax l) p q -> (N.to_nat (l_num l) <= length ranges)%nat ->
  exists ranges', lrf_renderLine l p q ranges = Ret ranges' /\ s_drawn (s_beam (l_amin l) (l_amax l) (l_num l)) (N.to_nat (l_num l)) p q ranges ranges'.
Proof.
  intros ops l p q ranges H C F W LN. pose proof (history_config ops l H C) as CF. destruct (fair_ok l p q CF F) as [a [b [F1 [F2 [F3 [F4 F5]]]]]].
  unfold lrf_renderLine. destruct (draw_R l p q a b (rr_make ranges) CF F1 F2 F3 F4 F5 LN W) as [res [E D]]. rewrite E. cbn [obind]. exists (rr_ranges res). auto.
Qed.
(** which beams these are: with the end points at angles a and b less than half a circle apart, those in (a, b]; when the short
    way round goes through the angle pi, those above a and those up to b *)
Theorem C53_beams : forall p q a b c, s_angle p a -> s_angle q b -> - PI < c <= PI ->
  (Rabs (b - a) < PI -> ((exists d, s_lit c p q d) <-> a < c <= b)) /\ (PI < a - b -> ((exists d, s_lit c p q d) <-> a < c \/ c <= b)) /\
  (PI <= b - a -> forall d, ~ s_lit c p q d).
Proof.
  intros p q a b c A B C. destruct (angle_s_ang p a A) as [<- P]. destruct (angle_s_ang q b B) as [<- Q]. split; [|split].
  - intros H. apply lit_near; auto.
  - intros H. apply lit_wrap; auto.
  - intros H d. apply lit_none; auto. left. lra.
Qed.
(** a segment starting or ending at the sensor, or of length zero, changes nothing, in every state *)
Theorem C53_null : forall (l : lrf R) p q ranges, p = V2 0 0 \/ q = V2 0 0 \/ p = q -> lrf_renderLine l p q ranges = Ret ranges.
Proof.
  intros l p q ranges H. unfold lrf_renderLine, renderLine. unR.
  assert (C : ((Reqb (v2x p) 0 && Reqb (v2y p) 0) || (Reqb (v2x q) 0 && Reqb (v2y q) 0) || Reqb (v2length2 (v2sub q p)) 0)%bool = true); [|rewrite C; reflexivity].
  assert (R0 : Reqb 0 0 = true) by (apply Reqb_true; reflexivity).
  destruct H as [-> | [-> | ->]]; cbn [v2x v2y]; rewrite ?R0; cbn [andb orb]; rewrite ?orb_true_r; cbn [orb]; auto.
  apply orb_true_iff. right. apply Reqb_true. unfold v2length2, v2dot, v2sub. cbn [v2x v2y]. unR. ring.
Qed.
(** an end point less than one increment before the first beam: the first beam is crossed by the segment but not drawn *)
Lemma unit_angle : forall a, - PI < a <= PI -> s_angle (V2 (cos a) (sin a)) a.
Proof. intros a H. split; auto. exists 1. split; [lra|]. f_equal; ring. Qed.
Lemma raw_unit : forall (l : lrf R) a, - PI < a <= PI -> angleRawXY l (cos a) (sin a) = angleRaw l a.
Proof. intros l a H. destruct (angle_s_ang _ _ (unit_angle a H)) as [E _]. unfold angleRawXY. unfold s_ang in E. cbn [v2x v2y] in E. change (natan2 (sin a) (cos a)) with (Ratan2 (sin a) (cos a)). rewrite E. reflexivity. Qed.
(* drawing a segment with unit end points, no range limit: evaluation up to the index arithmetic *)
Lemma unit_line : forall (l : lrf R) a b res, - PI < a <= PI -> - PI < b <= PI -> a <> b -> l_rmax l = 0 -> renderLine l (V2 (cos a) (sin a)) (V2 (cos b) (sin b)) res =
  obind (angleRaw l a) (fun i_p1 => obind (angleRaw l b) (fun i_p2 =>
      let diff := v2sub (V2 (cos b) (sin b)) (V2 (cos a) (sin a)) in let p1 := V2 (cos a) (sin a) in
      let i_min := Z.min i_p1 i_p2 in
      let i_max := Z.max i_p1 i_p2 in
      if negb (Z.leb (i_max - i_min) 2147483647) then UB
      else if Z.ltb (i_max - i_min) (s32 (l_half l)) then
        if Z.ltb i_p2 i_p1 then Ret res
        else if Z.leb (s32 (l_num l)) i_min then Ret res
        else
          let i_min1 := Z.to_N (Z.max 0 i_min) in
          let i_max1 := N.min (l_num l) (Z.to_N (Z.max 0 i_max)) in
          let* ranges := render_part l p1 diff (urange i_min1 i_max1) (rr_ranges res) in
          Ret (RR (N.min (rr_min res) i_min1) (N.max (rr_max res) i_max1) ranges)
      else
        if Z.ltb i_p1 i_p2 then Ret res
        else
          let i_min1 := Z.to_N (Z.max 0 i_max) in
          let i_max1 := l_num l in
          let i_max2 := N.min (l_num l) (Z.to_N (Z.max 0 i_min)) in
          let* ranges := render_part l p1 diff (urange i_min1 i_max1) (rr_ranges res) in
          let* ranges := render_part l p1 diff (urange 0 i_max2) ranges in
          Ret (RR 0 (l_num l) ranges))).
Proof.
  intros l a b res A B NE RM. unfold renderLine.
  assert (NU : forall c, ((v2x (V2 (cos c) (sin c)) =? n0)%num && (v2y (V2 (cos c) (sin c)) =? n0)%num)%bool = false).
  { intros c. cbn [v2x v2y]. unR. destruct (Reqb (cos c) 0) eqn:X; [|reflexivity]. destruct (Reqb (sin c) 0) eqn:Y; [|reflexivity].
    apply Reqb_true in X, Y. pose proof (sin2_cos2 c) as S. rewrite X, Y in S. unfold Rsqr in S. lra. }
  rewrite !NU. cbn [orb]. unR.
  assert (NL : Reqb (v2length2 (v2sub (V2 (cos b) (sin b)) (V2 (cos a) (sin a)))) 0 = false).
  { apply Reqb_false. intros E. apply turn_len in E. injection E as E1 E2. apply NE. apply angle_unique; auto. }
  rewrite NL. assert (RZ : Rltb 0 (l_rmax l) = false) by (apply Rltb_false; lra). rewrite RZ. cbn [andb].
  change (v2x (V2 (cos a) (sin a))) with (cos a). change (v2y (V2 (cos a) (sin a))) with (sin a). change (v2x (V2 (cos b) (sin b))) with (cos b). change (v2y (V2 (cos b) (sin b))) with (sin b).
  rewrite !raw_unit by auto. reflexivity.
Qed.
Lemma pi_gt3 : 3 < PI. Proof. pose proof PI2_3_2. lra. Qed.
Theorem C53_gap_refuted : exists ops (l : lrf R) p q a b ranges ranges', lrf_run lrf_new ops = Ret l /\ s_config (l_amin l) (l_amax l) (l_num l) /\
  s_angle p a /\ s_angle q b /\ 3 * s_incr (l_amin l) (l_amax l) (l_num l) <= Rabs (Rabs (b - a) - PI) /\ s_within (l_rmax l) p q /\ (N.to_nat (l_num l) <= length ranges)%nat /\
  lrf_renderLine l p q ranges = Ret ranges' /\ ~ s_drawn (s_beam (l_amin l) (l_amax l) (l_num l)) (N.to_nat (l_num l)) p q ranges ranges'.
Proof.
  pose proof pi_gt3 as P3. pose proof PI_4 as P4.
  destruct (configured 0 1 5) as [l [E [A [B [C D]]]]]; try lra; try lia.
  { unfold s_incr. cbn. lra. }
  assert (IN : s_incr (l_amin l) (l_amax l) (l_num l) = 1/4) by (rewrite A, B, C; unfold s_incr; cbn; lra).
  destruct (lrf_run_inv _ _ _ lrf_new_inv E) as [NB TB]. specialize (TB ltac:(rewrite C; lia) ltac:(rewrite A, B; lra)). destruct TB as [T1 [_ [_ T4]]].
  exists [LBeams 5; LAngles 0 1], l, (V2 (cos (-1/8)) (sin (-1/8))), (V2 (cos (1/8)) (sin (1/8))), (-1/8), (1/8), [0;0;0;0;0], [0;0;0;0;0].
  assert (AP : s_angle (V2 (cos (-1/8)) (sin (-1/8))) (-1/8)) by (apply unit_angle; lra).
  assert (AQ : s_angle (V2 (cos (1/8)) (sin (1/8))) (1/8)) by (apply unit_angle; lra).
  split; [exact E|]. split; [|split; [exact AP|split; [exact AQ|split; [|split; [left; lra|split; [rewrite C; cbn; lia|split]]]]]].
  - split; [rewrite C; lia|]. rewrite IN, A, B. repeat split; try lra.
  - rewrite IN. replace (1/8 - -1/8) with (1/4) by lra. rewrite (Rabs_right (1/4)) by lra. rewrite Rabs_left by lra. lra.
  - unfold lrf_renderLine. rewrite unit_line by (lra || auto). 
    assert (R1 : forall x, -1 < x < 1 -> Ztrunc x = 0%Z).
    { intros x X. destruct (Rle_or_lt 0 x); [rewrite Ztrunc_floor by auto; apply Zfloor_imp; cbn; lra|rewrite Ztrunc_ceil by lra; apply Zceil_imp; cbn; lra]. }
    rewrite T1, IN in T4. rewrite !raw_R by (rewrite T1, IN, A; unfold in_int; lra). rewrite T1, IN, A. rewrite !R1 by lra. cbn [obind].
    assert (HP : (1 <= l_half l < 2147483648)%N).
    { rewrite Ztrunc_floor in T4 by lra. assert (1 <= Zfloor (PI / (1/4)))%Z by (apply Zfloor_lub; lra). assert (Zfloor (PI / (1/4)) <= 16)%Z; [|lia].
      apply le_IZR. pose proof (Zfloor_lb (PI / (1/4))). lra. }
    assert (S1 : s32 (l_half l) = Z.of_N (l_half l)) by (unfold s32; destruct (N.ltb_spec (l_half l) 2147483648); [reflexivity|lia]). rewrite S1, C. change (Z.max (0 + 1) (0 + 1) - Z.min (0 + 1) (0 + 1))%Z with 0%Z.
    destruct (Z.ltb_spec 0 (Z.of_N (l_half l))); [|lia]. reflexivity.
  - intros [_ DR]. destruct (DR 0%nat 0 eq_refl) as [[_ [d [L N]]]|[[N|N] _]].
    + cbn in N. injection N as N. unfold s_nearer in N. destruct (Req_EM_T 0 0); [|lra]. destruct L as [_ [L _]]. lra.
    + rewrite C in N. cbn in N. lia.
    + assert (LT : exists d, s_lit (s_beam (l_amin l) (l_amax l) (l_num l) 0) (V2 (cos (-1/8)) (sin (-1/8))) (V2 (cos (1/8)) (sin (1/8))) d).
      { apply (proj1 (C53_beams _ _ _ _ (s_beam (l_amin l) (l_amax l) (l_num l) 0) AP AQ ltac:(unfold s_beam; rewrite A; cbn; lra))); [rewrite Rabs_right; lra|]. unfold s_beam. rewrite A. cbn. lra. }
      destruct LT as [d L]. apply (N d L).
Qed.
(** a front-facing segment spanning almost half a circle is culled when the half circle is not a whole number of increments *)
Theorem C53_cull_refuted : exists ops (l : lrf R) p q a b ranges ranges', lrf_run lrf_new ops = Ret l /\ s_config (l_amin l) (l_amax l) (l_num l) /\
  s_angle p a /\ s_angle q b /\ s_clear (l_amin l) (l_amax l) (l_num l) a /\ s_clear (l_amin l) (l_amax l) (l_num l) b /\ Rabs (b - a) < PI /\
  s_within (l_rmax l) p q /\ (N.to_nat (l_num l) <= length ranges)%nat /\
  lrf_renderLine l p q ranges = Ret ranges' /\ ~ s_drawn (s_beam (l_amin l) (l_amax l) (l_num l)) (N.to_nat (l_num l)) p q ranges ranges'.
Proof.
  pose proof pi_gt3 as P3. pose proof PI_4 as P4.
  destruct (configured (-5/4) (5/4) 2) as [l [E [A [B [C D]]]]]; try lra; try lia.
  { unfold s_incr. cbn. lra. }
  assert (IN : s_incr (l_amin l) (l_amax l) (l_num l) = 5/2) by (rewrite A, B, C; unfold s_incr; cbn; lra).
  destruct (lrf_run_inv _ _ _ lrf_new_inv E) as [NB TB]. specialize (TB ltac:(rewrite C; lia) ltac:(rewrite A, B; lra)). destruct TB as [T1 [_ [_ T4]]].
  exists [LBeams 2; LAngles (-5/4) (5/4)], l, (V2 (cos (-5/4)) (sin (-5/4))), (V2 (cos (5/4)) (sin (5/4))), (-5/4), (5/4), [0;0], [0;0].
  assert (AP : s_angle (V2 (cos (-5/4)) (sin (-5/4))) (-5/4)) by (apply unit_angle; lra).
  assert (AQ : s_angle (V2 (cos (5/4)) (sin (5/4))) (5/4)) by (apply unit_angle; lra).
  assert (DL : Rabs (5/4 - -5/4) < PI) by (rewrite Rabs_right; lra).
  split; [exact E|]. split; [|split; [exact AP|split; [exact AQ|split; [|split; [|split; [exact DL|split; [left; lra|split; [rewrite C; cbn; lia|split]]]]]]]].
  - split; [rewrite C; lia|]. rewrite IN, A, B. repeat split; try lra.
  - unfold s_clear. rewrite A. lra.
  - unfold s_clear. rewrite A. lra.
  - unfold lrf_renderLine. rewrite unit_line by (lra || auto). rewrite T1, IN in T4. rewrite !raw_R by (rewrite T1, IN, A; unfold in_int; lra). rewrite T1, IN, A.
    replace ((-5/4 - -5/4) / (5/2)) with (IZR 0) by field. replace ((5/4 - -5/4) / (5/2)) with (IZR 1) by field. rewrite !Ztrunc_IZR. cbn [obind].
    assert (HP : (l_half l < 2)%N).
    { rewrite Ztrunc_floor in T4 by lra. assert (Zfloor (PI / (5/2)) < 2)%Z; [|lia].
      apply lt_IZR. pose proof (Zfloor_lb (PI / (5/2))). lra. }
    assert (S1 : s32 (l_half l) = Z.of_N (l_half l)) by (unfold s32; destruct (N.ltb_spec (l_half l) 2147483648); [reflexivity|lia]). rewrite S1. change (Z.max (0 + 1) (1 + 1) - Z.min (0 + 1) (1 + 1))%Z with 1%Z.
    destruct (Z.ltb_spec 1 (Z.of_N (l_half l))); [lia|]. reflexivity.
  - intros [_ DR]. destruct (DR 1%nat 0 eq_refl) as [[_ [d [L N]]]|[[N|N] _]].
    + cbn in N. injection N as N. unfold s_nearer in N. destruct (Req_EM_T 0 0); [|lra]. destruct L as [_ [L _]]. lra.
    + rewrite C in N. cbn in N. lia.
    + assert (LT : exists d, s_lit (s_beam (l_amin l) (l_amax l) (l_num l) 1) (V2 (cos (-5/4)) (sin (-5/4))) (V2 (cos (5/4)) (sin (5/4))) d).
      { apply (proj1 (C53_beams _ _ _ _ (s_beam (l_amin l) (l_amax l) (l_num l) 1) AP AQ ltac:(unfold s_beam; rewrite IN, A; cbn; lra))); [exact DL|]. unfold s_beam. rewrite IN, A. cbn. lra. }
      destruct LT as [d L]. apply (N d L).
Qed.
Example C53_nonvacuous : exists (l : lrf R), lrf_run lrf_new [LBeams 5; LAngles (-1) 1] = Ret l /\ s_config (l_amin l) (l_amax l) (l_num l) /\
  s_fair (l_amin l) (l_amax l) (l_num l) (V2 (cos (-1/8)) (sin (-1/8))) (V2 (cos (1/8)) (sin (1/8))) /\ s_within (l_rmax l) (V2 (cos (-1/8)) (sin (-1/8))) (V2 (cos (1/8)) (sin (1/8))) /\
  exists d, s_lit (s_beam (l_amin l) (l_amax l) (l_num l) 2) (V2 (cos (-1/8)) (sin (-1/8))) (V2 (cos (1/8)) (sin (1/8))) d.
Proof.
  pose proof pi_gt3 as P3. pose proof PI_4 as P4.
  destruct (configured (-1) 1 5) as [l [E [A [B [C D]]]]]; try lra; try lia.
  { unfold s_incr. cbn. lra. }
  assert (AP : s_angle (V2 (cos (-1/8)) (sin (-1/8))) (-1/8)) by (apply unit_angle; lra).
  assert (AQ : s_angle (V2 (cos (1/8)) (sin (1/8))) (1/8)) by (apply unit_angle; lra).
  assert (IN : s_incr (l_amin l) (l_amax l) (l_num l) = 1/2) by (rewrite A, B, C; unfold s_incr; cbn; lra).
  exists l. split; auto. split; [|split; [|split; [left; lra|]]].
  - split; [rewrite C; lia|]. rewrite IN, A, B. repeat split; try lra.
  - exists (-1/8), (1/8). split; auto. split; auto. unfold s_clear. rewrite IN, A. split; [lra|]. split; [lra|]. replace (1/8 - -1/8) with (1/4) by lra. rewrite (Rabs_right (1/4)) by lra. rewrite Rabs_left by lra. lra.
  - apply (proj1 (C53_beams _ _ _ _ (s_beam (l_amin l) (l_amax l) (l_num l) 2) AP AQ ltac:(unfold s_beam; rewrite IN, A; cbn; lra))); [rewrite Rabs_right; lra|]. unfold s_beam. rewrite IN, A. cbn. lra.
Qed.
Print Assumptions C53_partial.
Print Assumptions C53_beams.
Print Assumptions C53_null.
Print Assumptions C53_gap_refuted.
Print Assumptions C53_cull_refuted.

(** ** C54 *)
Theorem C54_line_far : forall (l : lrf R) p q ranges, ~ s_within (l_rmax l) p q -> lrf_renderLine l p q ranges = Ret ranges.
Proof.
  intros l p q ranges W. destruct (within_dec (l_rmax l) p q) as [W'|[RP FAR]]; [contradiction|]. unfold lrf_renderLine. rewrite line_far by auto. reflexivity.
Qed.
(** otherwise the limit has no influence *)
Theorem C54_line_near : forall (l : lrf R) p q ranges, s_within (l_rmax l) p q ->
  lrf_renderLine l p q ranges = lrf_renderLine (setRangeLimits l (l_rmin l) 0) p q ranges.
Proof. intros l p q ranges W. unfold lrf_renderLine. rewrite line_limits; auto. left. lra. Qed.
(** rendering a mesh draws the slices of its triangles, or nothing when the triangles are out of range *)
Definition start_rr (l : lrf R) (ranges : list R) : rr R :=
  RR 0 (u32 (N.of_nat (length (l_rays l)))) (if Nat.eqb (length ranges) (length (l_rays l)) then ranges else resize (length (l_rays l)) 0 ranges).
Lemma render_cases : forall (l : lrf R) mops m pose ranges tris, mesh_run mesh_new mops = Ret m -> soup_of m = Some tris -> rigid pose ->
  lrf_render l m pose ranges = render_tris l (m_points m) pose (m_tris m) (start_rr l ranges) \/
  (lrf_render l m pose ranges = Ret (start_rr l ranges) /\
   forall a b c x, In (a, b, c) tris -> in_triangle (s_moved pose a) (s_moved pose b) (s_moved pose c) x -> vz x = 0 -> l_rmax l < s_norm x).
Proof.
  intros l mops m pose ranges tris M S RG. destruct (C16_radius m mops M) as [_ [RT _]]. set (r := fst (getMaxRadius m)) in *.
  unfold lrf_render. fold r. unR. change (RR 0 (u32 (N.of_nat (length (l_rays l)))) (if (length ranges =? length (l_rays l))%nat then ranges else resize (length (l_rays l)) 0 ranges)) with (start_rr l ranges).
  destruct (_ && _)%bool eqn:C; [right|left; reflexivity]. split; [reflexivity|]. apply andb_prop in C as [C1 C2]. apply Rltb_true in C1.
  intros a b c x I T Z. destruct (moved_combo pose a b c x T) as [v [V ->]]. pose proof (RT tris a b c v S I V) as NV.
  assert (G : r < Rabs (vz (MathTypes.tt pose)) \/ l_rmax l < s_norm (MathTypes.tt pose) - r).
  { apply orb_prop in C2 as [C2|C2]; [left; apply Rltb_true; auto|right]. apply andb_prop in C2 as [_ C2]. apply Rltb_true in C2. exact C2. }
  destruct (skip_far r (l_rmax l) pose v RG NV G); [contradiction|auto].
Qed.
Theorem C54_mesh : forall (l : lrf R) mops m pose ranges tris a b c x, mesh_run mesh_new mops = Ret m -> soup_of m = Some tris -> rigid pose ->
  In (a, b, c) tris -> in_triangle (s_moved pose a) (s_moved pose b) (s_moved pose c) x -> vz x = 0 -> s_norm x <= l_rmax l ->
  exists qs, s_slices (map (mtri pose) tris) qs /\ lrf_render l m pose ranges = draw_segs l qs (start_rr l ranges).
Proof.
  intros l mops m pose ranges tris a b c x M S RG I T Z NX. destruct (tris_segs l (m_points m) pose (m_tris m) tris (start_rr l ranges) S) as [qs [Q E]].
  exists qs. split; auto. destruct (render_cases l mops m pose ranges tris M S RG) as [G|[_ G]]; [congruence|]. specialize (G a b c x I T Z). lra.
Qed.
(** range_max = 0 is "no limit" for renderLine but hides distant meshes from render *)
Lemma ang_bound : forall x y, 0 < x -> Rabs y < x -> s_angle (V2 x y) (atan (y / x)) /\ - (PI / 4) < atan (y / x) < PI / 4.
Proof.
  intros x y X Y. apply Rabs_def2 in Y. assert (B : -1 < y / x < 1). { split; apply Rmult_lt_reg_r with x; auto; unfold Rdiv; rewrite Rmult_assoc, Rinv_l; lra. }
  assert (BB : - (PI / 4) < atan (y / x) < PI / 4).
  { rewrite <- atan_1, <- atan_opp. split; apply atan_increasing; lra. }
  split; auto. assert (NZ : V2 x y <> V2 0 0) by (intros E; injection E; lra). destruct (polar (V2 x y) NZ) as [r [R0 [E A]]].
  assert (SA : s_ang (V2 x y) = atan (y / x)). { unfold s_ang. cbn [v2x v2y]. unfold Ratan2. destruct (Rlt_dec 0 x); [reflexivity|contradiction]. }
  rewrite SA in *. split; auto. exists r. auto.
Qed.
Theorem C54_zero_refuted : exists ops (l : lrf R) mops m pose a b c q1 q2 zeros ranges', lrf_run lrf_new ops = Ret l /\ l_rmax l = 0 /\
  mesh_run mesh_new mops = Ret m /\ soup_of m = Some [(a, b, c)] /\ rigid pose /\ s_slices (map (mtri pose) [(a, b, c)]) [(q1, q2)] /\
  lrf_render l m pose zeros = Ret (start_rr l zeros) /\ rr_ranges (start_rr l zeros) = zeros /\
  lrf_renderLine l q1 q2 zeros = Ret ranges' /\ nth_error zeros 2 = Some 0 /\ nth_error ranges' 2 = Some 10.
Proof.
  pose proof pi_gt3 as P3. pose proof PI_4 as P4.
  destruct (configured (-1) 1 5) as [l [E [A [B [C D]]]]]; try lra; try lia.
  { unfold s_incr. cbn. lra. }
  assert (IN : s_incr (l_amin l) (l_amax l) (l_num l) = 1/2) by (rewrite A, B, C; unfold s_incr; cbn; lra).
  assert (CF : s_config (l_amin l) (l_amax l) (l_num l)). { split; [rewrite C; lia|]. rewrite IN, A, B. repeat split; try lra. }
  set (mops := [OAddPoint (V3 0 1 (-1)); OAddPoint (V3 0 (-1) (-1)); OAddPoint (V3 0 0 1); OAddTriangle 0 1 2] : list (mesh_op R)).
  assert (EX : exists m, mesh_run mesh_new mops = Ret m /\ soup_of m = Some [(V3 0 1 (-1), V3 0 (-1) (-1), V3 0 0 1)] /\ m_points m = [V3 0 1 (-1); V3 0 (-1) (-1); V3 0 0 1]).
  { eexists. split; [reflexivity|]. split; reflexivity. }
  destruct EX as [m [M [S PT]]].
  set (pose := {| tR := m3identity; MathTypes.tt := V3 10 0 0 |} : trans3 R).
  assert (RG : rigid pose) by (apply rotation_identity).
  exists [LBeams 5; LAngles (-1) 1], l, mops, m, pose, (V3 0 1 (-1)), (V3 0 (-1) (-1)), (V3 0 0 1), (V2 10 (-1/2)), (V2 10 (1/2)), [0;0;0;0;0].
  assert (LR : length (l_rays l) = 5%nat).
  { destruct (C50_table _ _ E) as [_ [LR _]]; [rewrite C; lia|rewrite A, B; lra|]. rewrite C in LR. exact LR. }
  assert (ST : start_rr l [0;0;0;0;0] = RR 0 5 [0;0;0;0;0]). { unfold start_rr. rewrite LR. reflexivity. }
  (* the slice *)
  assert (MV : forall v, s_moved pose v = V3 (vx v + 10) (vy v) (vz v)). { intros [x y z]. unfold s_moved, pose. cbn. apply V3_eq; ring. }
  assert (SL : s_slice (s_moved pose (V3 0 1 (-1))) (s_moved pose (V3 0 (-1) (-1))) (s_moved pose (V3 0 0 1)) (V2 10 (-1/2)) (V2 10 (1/2)) /\ s_straddles (s_moved pose (V3 0 1 (-1))) (s_moved pose (V3 0 (-1) (-1))) (s_moved pose (V3 0 0 1))).
  { rewrite !MV. cbn [vx vy vz]. assert (SS : s_straddles (V3 (0 + 10) 1 (-1)) (V3 (0 + 10) (-1) (-1)) (V3 (0 + 10) 0 1)) by (unfold s_straddles; cbn [vz]; lra). split; auto.
    destruct (slice_some _ _ _ SS) as [q1 [q2 [SE SQ]]]. cbn [vz] in SE. unfold slice in SE. unR.
    assert (L1 : Rltb (-1) 0 = true) by (apply Rltb_true; lra). assert (L2 : Rltb 1 0 = false) by (apply Rltb_false; lra). rewrite L1, L2 in SE. cbn [Bool.eqb negb orb] in SE.
    unfold cut, xy, v2divs, v2add, v2scale in SE. cbn [vx vy v2x v2y] in SE. unR. rewrite (Rabs_right 1), (Rabs_left (-1)) in SE by lra. injection SE as <- <-.
    replace (V2 10 (-1/2)) with (V2 (((0 + 10) * - -1 + (0 + 10) * 1) / (1 + - -1)) ((0 * - -1 + -1 * 1) / (1 + - -1))) by (apply f_equal2; field).
    replace (V2 10 (1/2)) with (V2 (((0 + 10) * - -1 + (0 + 10) * 1) / (1 + - -1)) ((0 * - -1 + 1 * 1) / (1 + - -1))) by (apply f_equal2; field). exact SQ. }
  destruct SL as [SL SS].
  (* the drawn line *)
  destruct (ang_bound 10 (-1/2)) as [A1 B1]; [lra|unfold Rabs; destruct (Rcase_abs _); lra|]. destruct (ang_bound 10 (1/2)) as [A2 B2]; [lra|unfold Rabs; destruct (Rcase_abs _); lra|].
  set (a := atan (-1/2/10)) in *. set (b := atan (1/2/10)) in *.
  assert (FR : s_fair (l_amin l) (l_amax l) (l_num l) (V2 10 (-1/2)) (V2 10 (1/2))).
  { exists a, b. split; auto. split; auto. unfold s_clear. rewrite IN, A. split; [lra|]. split; [lra|].
    assert (BA : Rabs (b - a) < PI / 2) by (apply Rabs_def1; lra). rewrite (Rabs_left (Rabs (b - a) - PI)) by lra. lra. }
  destruct (C53_partial _ l _ _ [0;0;0;0;0] E CF FR (or_introl (Req_le _ _ D))) as [ranges' [RL [LL DR]]]; [rewrite C; cbn; lia|].
  exists ranges'. split; auto. split; auto. split; auto. split; auto. split; auto. split; [cbn [map mtri]; apply sl_cut; auto; constructor|].
  assert (LIT : s_lit (s_beam (l_amin l) (l_amax l) (l_num l) 2) (V2 10 (-1/2)) (V2 10 (1/2)) 10).
  { unfold s_beam. rewrite IN, A. replace (-1 + INR 2 * (1/2)) with 0 by (cbn; lra). unfold s_lit. split; [unfold s_turn; cbn; lra|]. split; [lra|].
    exists (1/2). split; [lra|]. rewrite cos_0, sin_0. unfold s_along. cbn [v2x v2y]. f_equal; lra. }
  split; [|split; [rewrite ST; reflexivity|split; [exact RL|split; [reflexivity|]]]].
  - unfold lrf_render. destruct (C16_radius m mops M) as [R1 [_ [_ [R2 _]]]]. set (r := fst (getMaxRadius m)) in *. rewrite PT in R1, R2.
    destruct R2 as [p [IP NP]]; [discriminate|].
    assert (RB : 0 < r < 2).
    { assert (N1 : s_norm (V3 0 0 1) <= r) by (apply R1; right; right; left; auto). unfold s_norm, s_dot in N1. cbn [vx vy vz] in N1. replace (0 * 0 + 0 * 0 + 1 * 1) with 1 in N1 by ring. rewrite sqrt_1 in N1. split; [lra|].
      rewrite <- NP. replace 2 with (sqrt (2 * 2)) by (apply sqrt_square; lra). unfold s_norm. apply sqrt_lt_1_alt. unfold s_dot. destruct IP as [<-|[<-|[<-|[]]]]; cbn [vx vy vz]; lra. }
    unR. assert (LZ : vlength2 (MathTypes.tt pose) = 100) by (unfold pose, vlength2, vdot; cbn; unR; lra). rewrite LZ.
    assert (S100 : sqrt 100 = 10) by (replace 100 with (10 * 10) by ring; apply sqrt_square; lra). rewrite S100, D.
    assert (C1 : Rltb 0 r = true) by (apply Rltb_true; lra). assert (C2 : Rltb (r * r) 100 = true). { apply Rltb_true. apply Rlt_le_trans with (2 * 2); [apply Rmult_le_0_lt_compat; lra|lra]. }
    assert (C3 : Rltb 0 (10 - r) = true) by (apply Rltb_true; lra). rewrite C1, C2, C3. cbn [andb]. rewrite orb_true_r. reflexivity.
  - destruct (DR 2%nat 0 eq_refl) as [[_ [d [L N]]]|[[N|N] _]].
    + rewrite N. rewrite (lit_fun _ _ _ _ _ L LIT). unfold s_nearer. destruct (Req_EM_T 0 0); [reflexivity|lra].
    + rewrite C in N. cbn in N. lia.
    + exfalso. apply (N 10 LIT).
Qed.
Print Assumptions C54_line_far.
Print Assumptions C54_line_near.
Print Assumptions C54_mesh.
Print Assumptions C54_zero_refuted.

(** ** C55 *)
(** the code's slice of a triangle with corners on both sides of the plane is exactly the triangle's part in the plane, oriented
    by its normal; a triangle with all corners on one side has none *)
Theorem C55_slice : forall pose a b c, let m := s_moved pose in let cutting := slice (vert_z pose a) (vert_z pose b) (vert_z pose c) (vert_xy pose a) (vert_xy pose b) (vert_xy pose c) in
  (s_straddles (m a) (m b) (m c) -> exists q1 q2, cutting = Some (q1, q2) /\ s_slice (m a) (m b) (m c) q1 q2) /\
  (~ s_straddles (m a) (m b) (m c) -> cutting = None).
Proof.
  intros pose a b c m cutting. unfold cutting. rewrite !moved_z, !moved_xy. fold m. split; intros H.
  - destruct (slice_some _ _ _ H) as [q1 [q2 [E S]]]. exists q1, q2. auto.
  - apply (slice_none _ _ _ H).
Qed.
(** a segment is determined by being the slice: the result does not depend on the order of the corners *)
Theorem C55_unique : forall a b c p q p' q', s_slice a b c p q -> s_slice b c a p' q' -> p = p' /\ q = q'.
Proof. intros a b c p q p' q' H G. apply (slice_unique b c a); auto. apply slice_rot; auto. Qed.
(** the opposite orientation gives the reversed segment *)
Theorem C55_reversed : forall a b c p q, s_slice a b c p q -> s_slice a c b q p.
Proof.
  intros a b c p q [A [k [K [X Y]]]]. split.
  - intros x. assert (T : (exists v, in_triangle a c b v /\ vz v = 0 /\ V2 (vx v) (vy v) = x) <-> (exists v, in_triangle a b c v /\ vz v = 0 /\ V2 (vx v) (vy v) = x)).
    { split; intros [v [[u1 [u2 [u3 [U1 [U2 [U3 [SU ->]]]]]]] V]]; (eexists; split; [exists u1, u3, u2; split; [exact U1|split; [exact U3|split; [exact U2|split; [lra|reflexivity]]]]|]);
      cbn [vx vy vz] in *; destruct V as [V1 V2]; (split; [lra|rewrite <- V2; f_equal; ring]). }
    rewrite T, A. split; intros [t [T1 ->]]; exists (1 - t); (split; [lra|]); unfold s_along; f_equal; ring.
  - exists k. split; auto. assert (N : vx (s_normal a c b) = - vx (s_normal a b c) /\ vy (s_normal a c b) = - vy (s_normal a b c)) by (unfold s_normal, s_diff; cbn [vx vy vz]; split; ring).
    destruct N as [-> ->]. lra.
Qed.
(** the beams that the slice lights are those that hit the front of the triangle (without the slice's start) *)
Theorem C55_hits : forall a b c p q ang d, s_slice a b c p q -> (s_lit ang p q d <-> s_front_hit a b c ang d /\ V2 (d * cos ang) (d * sin ang) <> p).
Proof. exact lit_hit. Qed.
(** rendering a mesh draws exactly the slices, in the order of the triangles, unless all of the mesh in the plane is out of range *)
Theorem C55_render : forall (l : lrf R) mops m pose ranges tris, mesh_run mesh_new mops = Ret m -> soup_of m = Some tris -> rigid pose ->
  exists qs, s_slices (map (mtri pose) tris) qs /\
  (lrf_render l m pose ranges = draw_segs l qs (start_rr l ranges) \/
   lrf_render l m pose ranges = Ret (start_rr l ranges) /\
   forall a b c x, In (a, b, c) tris -> in_triangle (s_moved pose a) (s_moved pose b) (s_moved pose c) x -> vz x = 0 -> l_rmax l < s_norm x).
Proof.
  intros l mops m pose ranges tris M S RG. destruct (tris_segs l (m_points m) pose (m_tris m) tris (start_rr l ranges) S) as [qs [Q E]].
  exists qs. split; auto. destruct (render_cases l mops m pose ranges tris M S RG) as [G|G]; [left; congruence|right; auto].
Qed.
Example C55_nonvacuous : s_straddles (V3 1 0 (-1)) (V3 1 1 1) (V3 1 (-1) 1) /\ ~ s_straddles (V3 1 0 0) (V3 1 1 1) (V3 1 (-1) 1) /\
  exists q1 q2, s_slice (V3 1 0 (-1)) (V3 1 1 1) (V3 1 (-1) 1) q1 q2.
Proof.
  assert (S : s_straddles (V3 1 0 (-1)) (V3 1 1 1) (V3 1 (-1) 1)) by (unfold s_straddles; cbn [vz]; lra). split; auto. split; [unfold s_straddles; cbn [vz]; lra|].
  destruct (slice_some _ _ _ S) as [q1 [q2 [_ SQ]]]. exists q1, q2. auto.
Qed.
Print Assumptions C55_slice.
Print Assumptions C55_unique.
Print Assumptions C55_reversed.
Print Assumptions C55_hits.
Print Assumptions C55_render.

(** ** C72 *)
(** scanning a mesh: every beam ends with a range that is the old one or a true front hit, at most every front hit within range
    (hits in the interior of a triangle) and at most the old range. Missing from the full statement: triangles whose slice is unfair
    to the beams (see C53_gap_refuted), hits on the triangle border *)
Theorem C72_scan_partial : forall ops (l : lrf R) mops m pose ranges tris, lrf_run lrf_new ops = Ret l -> s_config (l_amin l) (l_amax l) (l_num l) ->
  mesh_run mesh_new mops = Ret m -> soup_of m = Some tris -> rigid pose -> (forall t, In t tris -> s_fair_tri (l_amin l) (l_amax l) (l_num l) (mtri pose t)) ->
  exists res, lrf_render l m pose ranges = Ret res /\ length (rr_ranges res) = N.to_nat (l_num l) /\
  forall i, (i < N.to_nat (l_num l))%nat ->
    let beam := s_beam (l_amin l) (l_amax l) (l_num l) i in let r := nth i ranges 0 in
    exists r', nth_error (rr_ranges res) i = Some r' /\
      (r' = r \/ exists a b c, In (a, b, c) tris /\ s_front_hit (s_moved pose a) (s_moved pose b) (s_moved pose c) beam r') /\
      (forall a b c d, In (a, b, c) tris -> s_front_hit (s_moved pose a) (s_moved pose b) (s_moved pose c) beam d ->
         in_open_triangle (s_moved pose a) (s_moved pose b) (s_moved pose c) (V3 (d * cos beam) (d * sin beam) 0) -> d <= l_rmax l -> r' <> 0 /\ r' <= d) /\
      (r <> 0 -> r' <> 0 /\ r' <= r).
Proof.
  intros ops l mops m pose ranges tris L CF M S RG FT. pose proof (history_config ops l L CF) as CO.
  assert (LS : length (rr_ranges (start_rr l ranges)) = N.to_nat (l_num l)) by (unfold start_rr; cbn [rr_ranges]; rewrite start_length; apply rays_length; auto).
  assert (NS : forall i, (i < N.to_nat (l_num l))%nat -> nth_error (rr_ranges (start_rr l ranges)) i = Some (nth i ranges 0)).
  { intros i I. unfold start_rr. cbn [rr_ranges]. apply start_nth. rewrite rays_length by auto. auto. }
  destruct (render_cases l mops m pose ranges tris M S RG) as [E|[E FAR]].
  - assert (TO : forall t, In t tris -> tri_ok l (mtri pose t)).
    { intros [[a b] c] I. specialize (FT _ I). cbn [mtri tri_ok s_fair_tri] in *. intros SS p q SL. destruct (FT SS p q SL) as [G|[G|[G|G]]]; [left|right; left|right; right; left|right; right; right]; auto. apply fair_ok; auto. }
    destruct (scan_tris l (m_points m) pose (m_tris m) tris (start_rr l ranges) CO S TO) as [res [RE [LE SC]]]; [lia|].
    exists res. split; [congruence|]. split; [congruence|]. intros i I beam r. destruct (SC i r (NS i I)) as [r' [N' [C1 [C2 C3]]]]. exists r'. split; auto. split; [|split; auto].
    + destruct C1 as [C1|[t [IT TL]]]; auto. right. apply in_map_iff in IT as [[[a b] c] [<- IT]]. exists a, b, c. split; auto. cbn [mtri tri_lit] in TL.
      destruct TL as [_ [_ [q1 [q2 [SL [_ LI]]]]]]. apply (lit_hit _ _ _ _ _ _ _ SL) in LI. apply LI.
    + intros a b c d IT FH OT DM. apply (C2 (mtri pose (a, b, c)) d); [apply in_map; auto|]. cbn [mtri tri_lit]. split; auto.
      assert (NN : s_dot (s_normal (s_moved pose a) (s_moved pose b) (s_moved pose c)) (V3 (d * cos beam) (d * sin beam) 0) <> 0) by (destruct FH as [_ [_ FH]]; lra).
      pose proof (open_straddles _ _ _ _ OT eq_refl NN) as SS. split; auto. destruct (slice_some _ _ _ SS) as [q1 [q2 [_ SL]]]. exists q1, q2. split; auto.
      assert (LI : s_lit beam q1 q2 d). { apply (lit_hit _ _ _ _ _ _ _ SL). split; auto. apply (open_not_end _ _ _ _ _ _ SL OT eq_refl NN). }
      split; auto. right. destruct LI as [_ [D0 [t [T EQ]]]]. exists t. split; [lra|]. rewrite <- EQ. unfold s_len2. cbn [v2x v2y].
      pose proof (sin2_cos2 beam) as SC2. unfold Rsqr in SC2. replace (d * cos beam * (d * cos beam) + d * sin beam * (d * sin beam)) with (d * d * (sin beam * sin beam + cos beam * cos beam)) by ring.
      rewrite SC2, Rmult_1_r. apply Rmult_le_compat; lra.
  - exists (start_rr l ranges). split; auto. split; auto. intros i I beam r. exists r. split; [apply NS; auto|]. split; [left; auto|]. split; [|intros; split; [auto|lra]].
    intros a b c d IT [D0 [T _]] _ DM. exfalso. pose proof (FAR a b c _ IT T eq_refl) as F. unfold s_norm, s_dot in F. cbn [vx vy vz] in F.
    pose proof (sin2_cos2 beam) as SC2. unfold Rsqr in SC2. replace (d * cos beam * (d * cos beam) + d * sin beam * (d * sin beam) + 0 * 0) with (d * d * (sin beam * sin beam + cos beam * cos beam)) in F by ring.
    rewrite SC2, Rmult_1_r, sqrt_square in F; lra.
Qed.
Print Assumptions C72_scan_partial.
(** the full statement fails for a triangle less than one increment before the first beam: the beam at angle 0 hits the inside of the
    triangle's front at distance 10, well within range_max, but keeps range 0 (nothing seen) *)
Theorem C72_refuted : exists ops (l : lrf R) mops m pose a b c res, lrf_run lrf_new ops = Ret l /\ s_config (l_amin l) (l_amax l) (l_num l) /\
  mesh_run mesh_new mops = Ret m /\ soup_of m = Some [(a, b, c)] /\ rigid pose /\
  let beam := s_beam (l_amin l) (l_amax l) (l_num l) 0 in 10 <= l_rmax l /\
  s_front_hit (s_moved pose a) (s_moved pose b) (s_moved pose c) beam 10 /\
  in_open_triangle (s_moved pose a) (s_moved pose b) (s_moved pose c) (V3 (10 * cos beam) (10 * sin beam) 0) /\
  lrf_render l m pose [0; 0; 0] = Ret res /\ rr_ranges res = [0; 0; 0].
Proof.
  pose proof pi_gt3 as P3. pose proof PI_4 as P4.
  destruct (configured 0 2 3) as [l0 [E [A [B [C D]]]]]; try lra; try lia.
  { unfold s_incr. cbn. lra. }
  set (l := setRangeLimits l0 0 100).
  assert (EL : lrf_run lrf_new [LBeams 3; LAngles 0 2; LRange 0 100] = Ret l).
  { cbn [lrf_run obind] in *. destruct (lrf_step lrf_new (LBeams 3)) as [l1| | |]; try discriminate. cbn [obind] in *. destruct (lrf_step l1 (LAngles 0 2)) as [l2| | |]; try discriminate. cbn [obind] in *. injection E as ->. reflexivity. }
  assert (A' : l_amin l = 0) by exact A. assert (B' : l_amax l = 2) by exact B. assert (C' : l_num l = 3%N) by exact C.
  assert (IN : s_incr (l_amin l) (l_amax l) (l_num l) = 1) by (rewrite A', B', C'; unfold s_incr; cbn; lra).
  assert (CF : s_config (l_amin l) (l_amax l) (l_num l)). { split; [rewrite C'; lia|]. rewrite IN, A', B'. repeat split; try lra. }
  destruct (lrf_run_inv _ _ _ lrf_new_inv EL) as [NB TB]. specialize (TB ltac:(rewrite C'; lia) ltac:(rewrite A', B'; lra)). destruct TB as [T1 [_ [_ T4]]].
  rewrite T1, IN in T4.
  assert (HP : (1 <= l_half l < 2147483648)%N).
  { rewrite Ztrunc_floor in T4 by lra. assert (1 <= Zfloor (PI / 1))%Z by (apply Zfloor_lub; lra). assert (Zfloor (PI / 1) <= 16)%Z; [|lia].
    apply le_IZR. pose proof (Zfloor_lb (PI / 1)). lra. }
  assert (S1 : s32 (l_half l) = Z.of_N (l_half l)) by (unfold s32; destruct (N.ltb_spec (l_half l) 2147483648); [reflexivity|lia]).
  assert (R1 : forall x, -1 < x < 1 -> Ztrunc x = 0%Z).
  { intros x X. destruct (Rle_or_lt 0 x); [rewrite Ztrunc_floor by auto; apply Zfloor_imp; cbn; lra|rewrite Ztrunc_ceil by lra; apply Zceil_imp; cbn; lra]. }
  (* a segment in front of the first beam changes no range *)
  assert (GAP : forall py qy res, Rabs py < 10 -> Rabs qy < 10 -> exists res', renderLine l (V2 10 py) (V2 10 qy) res = Ret res' /\ rr_ranges res' = rr_ranges res).
  { intros py qy res PY QY. unfold renderLine. destruct (_ || _)%bool; [exists res; auto|]. destruct (_ && _)%bool; [exists res; auto|].
    assert (RAW : forall y, Rabs y < 10 -> angleRawXY l 10 y = Ret 1%Z).
    { intros y Y. destruct (ang_bound 10 y) as [AY BY]; [lra|auto|]. destruct (angle_s_ang _ _ AY) as [E0 _]. unfold angleRawXY. unfold s_ang in E0. cbn [v2x v2y] in E0.
      change (natan2 y 10) with (Ratan2 y 10). rewrite E0. rewrite raw_R by (rewrite T1, IN, A'; unfold in_int; lra). rewrite T1, IN, A'. rewrite R1 by lra. reflexivity. }
    cbn [v2x v2y]. rewrite !RAW by auto. cbn [obind]. rewrite S1, C'. change (Z.max 1 1 - Z.min 1 1)%Z with 0%Z.
    destruct (Z.ltb_spec 0 (Z.of_N (l_half l))); [|lia]. eexists. split; reflexivity. }
  set (mops := [OAddPoint (V3 0 1 (-1)); OAddPoint (V3 0 (-1) (-1)); OAddPoint (V3 0 0 1); OAddTriangle 0 1 2] : list (mesh_op R)).
  assert (EX : exists m, mesh_run mesh_new mops = Ret m /\ soup_of m = Some [(V3 0 1 (-1), V3 0 (-1) (-1), V3 0 0 1)]).
  { eexists. split; reflexivity. }
  destruct EX as [m [M S]].
  set (pose := {| tR := m3identity; MathTypes.tt := V3 10 0 0 |} : trans3 R).
  assert (RG : rigid pose) by (apply rotation_identity).
  assert (LR : length (l_rays l) = 3%nat).
  { destruct (C50_table _ _ EL) as [_ [LR _]]; [rewrite C'; lia|rewrite A', B'; lra|]. rewrite C' in LR. exact LR. }
  assert (ST : start_rr l [0;0;0] = RR 0 3 [0;0;0]). { unfold start_rr. rewrite LR. reflexivity. }
  assert (MV : forall v, s_moved pose v = V3 (vx v + 10) (vy v) (vz v)). { intros [x y z]. unfold s_moved, pose. cbn. apply V3_eq; ring. }
  assert (REN : exists res, lrf_render l m pose [0;0;0] = Ret res /\ rr_ranges res = [0;0;0]).
  { destruct (C55_render l mops m pose [0;0;0] _ M S RG) as [qs [SQ [G|[G _]]]]; [|exists (start_rr l [0;0;0]); rewrite G, ST; auto].
    rewrite G, ST. cbn [map mtri] in SQ. rewrite !MV in SQ. cbn [vx vy vz] in SQ. inversion SQ as [|? ? ? ? ? _ N1 E1 E2|? ? ? p q ? qs' _ SL N1 E1 E2]; subst; inversion N1; subst; cbn [draw_segs].
    - eexists. split; reflexivity.
    - assert (PT : forall x, (exists t, 0 <= t <= 1 /\ x = s_along p q t) -> v2x x = 10 /\ Rabs (v2y x) < 10).
      { intros x H. apply (proj1 SL) in H as [v [[u1 [u2 [u3 [U1 [U2 [U3 [SU ->]]]]]]] [_ <-]]]. cbn [vx vy vz v2x v2y]. split; [rewrite !Rplus_0_l; lra|apply Rabs_def1; lra]. }
      destruct (PT p) as [PX PY]; [exists 0; split; [lra|]; destruct p as [e1 e2]; unfold s_along; cbn [v2x v2y]; f_equal; ring|].
      destruct (PT q) as [QX QY]; [exists 1; split; [lra|]; destruct q as [e1 e2]; unfold s_along; cbn [v2x v2y]; f_equal; ring|].
      destruct p as [px py]. destruct q as [qx qy]. cbn [v2x v2y] in *. subst px qx.
      destruct (GAP py qy (RR 0 3 [0;0;0]) PY QY) as [res' [GE GR]]. rewrite GE. cbn [obind draw_segs]. exists res'. split; auto. }
  destruct REN as [res [RE RR0]].
  exists [LBeams 3; LAngles 0 2; LRange 0 100], l, mops, m, pose, (V3 0 1 (-1)), (V3 0 (-1) (-1)), (V3 0 0 1), res.
  split; auto. split; auto. split; auto. split; auto. split; auto. intros beam. split; [cbn; lra|].
  rewrite !MV. cbn [vx vy vz]. assert (BE : beam = 0) by (unfold beam, s_beam; rewrite IN, A'; cbn; lra). rewrite BE, cos_0, sin_0.
  assert (OT : in_open_triangle (V3 (0 + 10) 1 (-1)) (V3 (0 + 10) (-1) (-1)) (V3 (0 + 10) 0 1) (V3 (10 * 1) (10 * 0) 0)).
  { exists (1/4), (1/4), (1/2). repeat split; try lra. cbn [vx vy vz]. apply V3_eq; lra. }
  split; [|auto]. split; [lra|]. rewrite cos_0, sin_0. split.
  - destruct OT as [u [v [w [U [V [W O]]]]]]. exists u, v, w. repeat split; try lra. apply O.
  - unfold s_dot, s_normal, s_diff. cbn [vx vy vz]. lra.
Qed.
Print Assumptions C72_refuted.
Example C72_nonvacuous : exists ops (l : lrf R) mops m pose a b c, lrf_run lrf_new ops = Ret l /\ s_config (l_amin l) (l_amax l) (l_num l) /\
  mesh_run mesh_new mops = Ret m /\ soup_of m = Some [(a, b, c)] /\ rigid pose /\ s_fair_tri (l_amin l) (l_amax l) (l_num l) (mtri pose (a, b, c)) /\
  let beam := s_beam (l_amin l) (l_amax l) (l_num l) 2 in (2 < N.to_nat (l_num l))%nat /\ 10 <= l_rmax l /\
  s_front_hit (s_moved pose a) (s_moved pose b) (s_moved pose c) beam 10 /\
  in_open_triangle (s_moved pose a) (s_moved pose b) (s_moved pose c) (V3 (10 * cos beam) (10 * sin beam) 0).
Proof.
  pose proof pi_gt3 as P3. pose proof PI_4 as P4.
  destruct (configured (-1) 1 5) as [l0 [E [A [B [C D]]]]]; try lra; try lia.
  { unfold s_incr. cbn. lra. }
  set (l := setRangeLimits l0 0 100).
  assert (EL : lrf_run lrf_new [LBeams 5; LAngles (-1) 1; LRange 0 100] = Ret l).
  { cbn [lrf_run obind] in *. destruct (lrf_step lrf_new (LBeams 5)) as [l1| | |]; try discriminate. cbn [obind] in *. destruct (lrf_step l1 (LAngles (-1) 1)) as [l2| | |]; try discriminate. cbn [obind] in *. injection E as ->. reflexivity. }
  assert (A' : l_amin l = -1) by exact A. assert (B' : l_amax l = 1) by exact B. assert (C' : l_num l = 5%N) by exact C.
  assert (IN : s_incr (l_amin l) (l_amax l) (l_num l) = 1/2) by (rewrite A', B', C'; unfold s_incr; cbn; lra).
  assert (CF : s_config (l_amin l) (l_amax l) (l_num l)). { split; [rewrite C'; lia|]. rewrite IN, A', B'. repeat split; try lra. }
  set (mops := [OAddPoint (V3 0 1 (-1)); OAddPoint (V3 0 (-1) (-1)); OAddPoint (V3 0 0 1); OAddTriangle 0 1 2] : list (mesh_op R)).
  set (pose := {| tR := m3identity; MathTypes.tt := V3 10 0 0 |} : trans3 R).
  exists [LBeams 5; LAngles (-1) 1; LRange 0 100], l, mops.
  eexists. exists pose, (V3 0 1 (-1)), (V3 0 (-1) (-1)), (V3 0 0 1). split; auto. split; auto. split; [reflexivity|]. split; [reflexivity|]. split; [apply rotation_identity|].
  assert (MV : forall v, s_moved pose v = V3 (vx v + 10) (vy v) (vz v)). { intros [x y z]. unfold s_moved, pose. cbn. apply V3_eq; ring. }
  cbn [mtri]. rewrite !MV. cbn [vx vy vz]. split.
  - cbn [s_fair_tri]. intros _ p q [SL _].
    assert (PT : forall x, (exists t, 0 <= t <= 1 /\ x = s_along p q t) -> v2x x = 10 /\ Rabs (v2y x) < 10).
    { intros x H. apply SL in H as [v [[u1 [u2 [u3 [U1 [U2 [U3 [SU ->]]]]]]] [_ <-]]]. cbn [vx vy vz v2x v2y]. split; [rewrite !Rplus_0_l; lra|apply Rabs_def1; lra]. }
    destruct (PT p) as [PX PY]; [exists 0; split; [lra|]; destruct p as [e1 e2]; unfold s_along; cbn [v2x v2y]; f_equal; ring|].
    destruct (PT q) as [QX QY]; [exists 1; split; [lra|]; destruct q as [e1 e2]; unfold s_along; cbn [v2x v2y]; f_equal; ring|].
    destruct p as [px py]. destruct q as [qx qy]. cbn [v2x v2y] in *. subst px qx. right. right. right.
    destruct (ang_bound 10 py) as [A1 B1]; [lra|auto|]. destruct (ang_bound 10 qy) as [A2 B2]; [lra|auto|].
    exists (atan (py / 10)), (atan (qy / 10)). split; auto. split; auto. set (a := atan (py / 10)) in *. set (b := atan (qy / 10)) in *.
    unfold s_clear. rewrite IN, A'. split; [lra|]. split; [lra|].
    assert (BA : Rabs (b - a) < PI / 2) by (apply Rabs_def1; lra). rewrite (Rabs_left (Rabs (b - a) - PI)) by lra. lra.
  - set (beam := s_beam (l_amin l) (l_amax l) (l_num l) 2). split; [rewrite C'; cbn; lia|]. split; [cbn; lra|].
    assert (BE : beam = 0) by (unfold beam, s_beam; rewrite IN, A'; cbn; lra). rewrite BE, cos_0, sin_0.
    assert (OT : in_open_triangle (V3 (0 + 10) 1 (-1)) (V3 (0 + 10) (-1) (-1)) (V3 (0 + 10) 0 1) (V3 (10 * 1) (10 * 0) 0)).
    { exists (1/4), (1/4), (1/2). repeat split; try lra. cbn [vx vy vz]. apply V3_eq; lra. }
    split; auto. split; [lra|]. rewrite cos_0, sin_0. split.
    + destruct OT as [u [v [w [U [V [W O]]]]]]. exists u, v, w. repeat split; try lra. apply O.
    + unfold s_dot, s_normal, s_diff. cbn [vx vy vz]. lra.
Qed.
