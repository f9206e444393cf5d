(** * Point containment on doubles: the computed outside point and the answer *)
From Coq Require Import ZArith NArith List Reals Lra Lia Bool.
From Flocq Require Import Core BinarySingleNaN.
From Verif Require Import Num NumOrd MathTypes Outcome Mesh Box Spec SpecRound P_Tac P_Math P_Mesh P_MeshGeo Props_Mesh P_Round P_Round3 P_OctF P_OctF2 P_RayF P_Ap ShapeQuery SpecQuery SpecInsideF P_InsideF P_Query P_Query2 P_Query3.
Import ListNotations.
Local Open Scope R_scope.
Local Notation fin := (is_finite (prec := 53) (emax := 1024)).

(** ** moving the outside point *)
Lemma orient_shift : forall p a b x d, s_orient p (V3 (x + d) 0 0) a b = s_orient p (V3 x 0 0) a b + d * ((vy a - vy p) * (vz b - vz p) - (vz a - vz p) * (vy b - vy p)).
Proof. intros. unfold s_orient, s_det, s_diff. cbn [vx vy vz]. ring. Qed.
Lemma height_shift : forall a b c x d, s_height a b c (V3 (x + d) 0 0) = s_height a b c (V3 x 0 0) + d * ((vy b - vy a) * (vz c - vz a) - (vz b - vz a) * (vy c - vy a)).
Proof. intros. unfold s_height, s_det, s_diff. cbn [vx vy vz]. ring. Qed.
Lemma det2_bound : forall x y z w B, Rabs x <= B -> Rabs y <= B -> Rabs z <= B -> Rabs w <= B -> Rabs (x * y - z * w) <= 2 * (B * B).
Proof. intros x y z w B X Y Z W. replace (2 * (B * B)) with (B * B + B * B) by ring. unfold Rminus. apply Rabs_plus_le; [apply Rabs_mult_le; auto|rewrite Rabs_Ropp; apply Rabs_mult_le; auto]. Qed.
Lemma diff_bound : forall x y B, Rabs x <= B -> Rabs y <= B -> Rabs (x - y) <= 2 * B.
Proof. intros x y B X Y. replace (2 * B) with (B + B) by ring. unfold Rminus. apply Rabs_plus_le; [|rewrite Rabs_Ropp]; auto. Qed.
Lemma height_bound : forall a b c p B, s_bound B a -> s_bound B b -> s_bound B c -> s_bound B p -> Rabs (s_height a b c p) <= 48 * (B * B * B).
Proof.
  intros a b c p B [A1 [A2 A3]] [B1 [B2 B3]] [C1 [C2 C3]] [P1 [P2 P3]]. unfold s_height, s_det, s_diff. cbn [vx vy vz].
  match goal with |- Rabs ?X <= _ => replace X with ((vx b - vx a) * ((vy c - vy a) * (vz p - vz a) - (vz c - vz a) * (vy p - vy a)) +
    ((vy b - vy a) * ((vz c - vz a) * (vx p - vx a) - (vx c - vx a) * (vz p - vz a)) + (vz b - vz a) * ((vx c - vx a) * (vy p - vy a) - (vy c - vy a) * (vx p - vx a)))) by ring end.
  replace (48 * (B * B * B)) with ((2 * B) * (2 * ((2 * B) * (2 * B))) + ((2 * B) * (2 * ((2 * B) * (2 * B))) + (2 * B) * (2 * ((2 * B) * (2 * B))))) by ring.
  repeat apply Rabs_plus_le; (apply Rabs_mult_le; [apply diff_bound; auto|apply det2_bound; apply diff_bound; auto]).
Qed.
Lemma same_signs : forall x y, Rabs (y - x) < Rabs x -> pos x = pos y /\ (0 < x <-> 0 < y) /\ (x < 0 <-> y < 0).
Proof.
  intros x y H. assert (C : (0 < x /\ 0 < y) \/ (x < 0 /\ y < 0)) by (revert H; unfold Rabs; destruct (Rcase_abs _), (Rcase_abs _); lra).
  split; [|lra]. unfold pos. destruct (Rlt_dec 0 x), (Rlt_dec 0 y); lra || reflexivity.
Qed.
Lemma sgn3_same : forall x y z x' y' z', (0 < x <-> 0 < x') -> (x < 0 <-> x' < 0) -> (0 < y <-> 0 < y') -> (y < 0 <-> y' < 0) -> (0 < z <-> 0 < z') -> (z < 0 <-> z' < 0) ->
  sgn3 x y z = sgn3 x' y' z'.
Proof.
  intros x y z x' y' z' X1 X2 Y1 Y2 Z1 Z2. unfold sgn3.
  destruct (Rlt_dec 0 x), (Rlt_dec 0 x'); try tauto; destruct (Rlt_dec 0 y), (Rlt_dec 0 y'); try tauto; destruct (Rlt_dec 0 z), (Rlt_dec 0 z'); try tauto;
  destruct (Rlt_dec x 0), (Rlt_dec x' 0); try tauto; destruct (Rlt_dec y 0), (Rlt_dec y' 0); try tauto; destruct (Rlt_dec z 0), (Rlt_dec z' 0); tauto || reflexivity.
Qed.
(** a triangle well clear of the ideal segment is clear of the computed one, with the same crossing *)
Lemma shift_clear : forall rad p d t, 0 < rad -> s_bound (2 * rad) p -> (let '(a, b, c) := t in s_bound (2 * rad) a /\ s_bound (2 * rad) b /\ s_bound (2 * rad) c) ->
  Rabs d <= 24 * uro * rad -> s_robust rad p t ->
  wide (2 * rad) p (V3 (11 / 10 * rad + d) 0 0) t /\ nz1 p (V3 (11 / 10 * rad + d) 0 0) t /\ segt p (V3 (11 / 10 * rad + d) 0 0) t = segt p (s_outside rad) t /\ s_generic p (s_outside rad) t.
Proof.
  intros rad p d [[a b] c] RP BP [BA [BB BC]] D [G1 [G2 [G3 [G4 G5]]]]. assert (UP := uro_pos). set (q := V3 (11 / 10 * rad + d) 0 0).
  assert (R2 : 0 < rad * rad) by (apply Rmult_lt_0_compat; auto). assert (R3 : 0 < rad * rad * rad) by (apply Rmult_lt_0_compat; auto).
  assert (R6 : 0 < rad * rad * rad * (rad * rad * rad)) by (apply Rmult_lt_0_compat; auto).
  assert (OR : forall x y, s_bound (2 * rad) x -> s_bound (2 * rad) y -> Rabs (s_orient p q x y - s_orient p (s_outside rad) x y) <= 768 * uro * (rad * rad * rad)).
  { intros x y [X1 [X2 X3]] [Y1 [Y2 Y3]]. destruct BP as [P1 [P2 P3]]. unfold q. rewrite orient_shift. unfold s_outside.
    match goal with |- Rabs ?E <= _ => replace E with (d * ((vy x - vy p) * (vz y - vz p) - (vz x - vz p) * (vy y - vy p))) by ring end.
    replace (768 * uro * (rad * rad * rad)) with ((24 * uro * rad) * (2 * ((2 * (2 * rad)) * (2 * (2 * rad))))) by ring. apply Rabs_mult_le; auto. apply det2_bound; apply diff_bound; auto. }
  assert (HQ : Rabs (s_height a b c q - s_height a b c (s_outside rad)) <= 768 * uro * (rad * rad * rad)).
  { destruct BA as [X1 [X2 X3]], BB as [Y1 [Y2 Y3]], BC as [Z1 [Z2 Z3]]. unfold q. rewrite height_shift. unfold s_outside.
    match goal with |- Rabs ?E <= _ => replace E with (d * ((vy b - vy a) * (vz c - vz a) - (vz b - vz a) * (vy c - vy a))) by ring end.
    replace (768 * uro * (rad * rad * rad)) with ((24 * uro * rad) * (2 * ((2 * (2 * rad)) * (2 * (2 * rad))))) by ring. apply Rabs_mult_le; auto. apply det2_bound; apply diff_bound; auto. }
  assert (HP := height_bound a b c p _ BA BB BC BP). replace (48 * (2 * rad * (2 * rad) * (2 * rad))) with (384 * (rad * rad * rad)) in HP by ring.
  assert (O1 := OR a b BA BB). assert (O2 := OR b c BB BC). assert (O3 := OR c a BC BA). clear OR.
  set (hp := s_height a b c p) in *. set (hq := s_height a b c q) in *. set (h0 := s_height a b c (s_outside rad)) in *.
  assert (HH : Rabs (hp * hq - hp * h0) <= 294912 * uro * (rad * rad * rad * (rad * rad * rad))).
  { replace (hp * hq - hp * h0) with (hp * (hq - h0)) by ring. replace (294912 * uro * (rad * rad * rad * (rad * rad * rad))) with (384 * (rad * rad * rad) * (768 * uro * (rad * rad * rad))) by ring.
    apply Rabs_mult_le; auto. }
  replace (rad ^ 3) with (rad * rad * rad) in * by ring. replace (rad ^ 6) with (rad * rad * rad * (rad * rad * rad)) in * by ring. replace (rad ^ 2) with (rad * rad) in * by ring.
  set (r6 := rad * rad * rad * (rad * rad * rad)) in *. set (r3 := rad * rad * rad) in *. set (r2 := rad * rad) in *.
  assert (V3P : 0 < uro * r3) by (apply Rmult_lt_0_compat; auto). assert (V6P : 0 < uro * r6) by (apply Rmult_lt_0_compat; auto). assert (V2P : 0 < uro * r2) by (apply Rmult_lt_0_compat; auto).
  assert (TR : forall x y e, Rabs (y - x) <= e -> Rabs x - e <= Rabs y) by (intros x y e H; pose proof (Rabs_triang_inv x y); rewrite Rabs_minus_sym in H; lra).
  pose proof (TR _ _ _ O1) as T1. pose proof (TR _ _ _ O2) as T2. pose proof (TR _ _ _ O3) as T3. pose proof (TR _ _ _ HH) as T4.
  destruct (same_signs _ _ (Rle_lt_trans _ _ (Rabs (s_orient p (s_outside rad) a b)) O1 ltac:(lra))) as [_ [S1 S1']].
  destruct (same_signs _ _ (Rle_lt_trans _ _ (Rabs (s_orient p (s_outside rad) b c)) O2 ltac:(lra))) as [_ [S2 S2']].
  destruct (same_signs _ _ (Rle_lt_trans _ _ (Rabs (s_orient p (s_outside rad) c a)) O3 ltac:(lra))) as [_ [S3 S3']].
  destruct (same_signs _ _ (Rle_lt_trans _ _ (Rabs (hp * h0)) HH ltac:(lra))) as [_ [S4 S4']].
  assert (NZ : hp * h0 <> 0) by (intros Z; rewrite Z, Rabs_R0 in G4; lra). assert (NZ' : hp * hq <> 0) by (intros Z; rewrite Z, Rabs_R0 in T4; lra).
  split.
  { unfold wide. fold hp hq. replace ((2 * rad) ^ 3) with (8 * r3) by (unfold r3, r2; ring). replace ((2 * rad) ^ 6) with (64 * r6) by (unfold r6, r3, r2; ring). replace ((2 * rad) ^ 2) with (4 * r2) by (unfold r2; ring).
    repeat split; lra. }
  split.
  { unfold nz1. fold hp hq. assert (K : forall x y, 0 < y -> y <= Rabs x -> x <> 0) by (intros x y Y H ->; rewrite Rabs_R0 in H; lra).
    split; [|split; [intros Z; apply NZ'; rewrite Z; ring|intros Z; apply NZ'; rewrite Z; ring]].
    split; [|split]; [eapply K; [|exact T1]|eapply K; [|exact T2]|eapply K; [|exact T3]]; lra. }
  split.
  { unfold segt, seg. fold hp hq h0. assert (E : pos hq = pos h0).
    { unfold pos. destruct (Rlt_dec 0 hq) as [L|L], (Rlt_dec 0 h0) as [L'|L']; auto; exfalso.
      - assert (h0 < 0) by (destruct (Rtotal_order h0 0) as [|[Z|]]; auto; [exfalso; apply NZ; rewrite Z; ring|lra]). destruct (Rtotal_order hp 0) as [N|[Z|P]]; [|apply NZ; rewrite Z; ring|]; nra.
      - assert (hq < 0) by (destruct (Rtotal_order hq 0) as [|[Z|]]; auto; [exfalso; apply NZ'; rewrite Z; ring|lra]). destruct (Rtotal_order hp 0) as [N|[Z|P]]; [|apply NZ; rewrite Z; ring|]; nra. }
    rewrite E. rewrite (sgn3_same _ _ _ _ _ _ S1 S1' S2 S2' S3 S3'). reflexivity. }
  unfold s_generic. fold hp h0. repeat split; lra.
Qed.
(** ** the answer of contains *)
Definition h00 : hits := Hits 0 (fun _ _ => 0%Z) (fun _ => 0%Z).
Lemma contains_unc : forall (m : mesh F64) ops, mesh_run mesh_new ops = Ret m ->
  let c : F64 := fold_left (fun (c : F64) (p : vec3 F64) => nmax c (vlength2 p)) (m_points m) (n0 : F64) in
  forall p, mesh_contains m p = if nltb c (vlength2 p) then Ret false else contains_loop (m_points m) p (V3 (nmul (nlit 11 10) (nsqrt c)) n0 n0) (m_tris m) h00.
Proof.
  intros m ops RUN c p. destruct (C12_doubles m ops RUN) as [E1 E2]. unfold mesh_contains. rewrite E1, E2. unfold getMaxRadius, getSquaredMaxRadius, uncached.
  cbn [m_points m_tris m_r m_r2]. assert (Z : neqb (n0 : F64) n0 = true) by (vm_compute; reflexivity). rewrite Z. cbn [fst snd]. fold c. reflexivity.
Qed.
Lemma decide_F : forall (m : mesh F64) ops rad p l, mesh_run mesh_new ops = Ret m -> (forall v, In v (m_points m) -> s_finv v) -> s_finv p -> s_bound (bpow radix2 100) (rv p) ->
  s_max_radius (map rv (m_points m)) rad -> bpow radix2 (-100) <= rad <= bpow radix2 99 -> s_soup (map rv (m_points m)) (map idx (m_tris m)) = Some l ->
  (rad * rad + 100 * uro * (rad * rad) <= s_norm2 (rv p) -> mesh_contains m p = Ret false) /\
  (s_norm2 (rv p) <= rad * rad - 100 * uro * (rad * rad) -> (forall t, In t l -> s_robust rad (rv p) t) -> mesh_contains m p = Ret (Z.eqb (s_zsum (map (segt (rv p) (s_outside rad)) l)) 1)).
Proof.
  intros m ops rad p l RUN FP FQ BP MR RR S. pose proof (contains_unc m ops RUN) as CU. cbv zeta in CU. rewrite CU. clear CU.
  destruct (radius_F (m_points m) rad RR FP MR) as [FC [EC [FS [ES [FO EO]]]]]. set (c := fold_left _ (m_points m) (n0 : F64)) in *. clearbody c.
  assert (RP : 0 < rad) by (pose proof (bpow_gt_0 radix2 (-100)); lra). assert (R2 : 0 < rad * rad) by (apply Rmult_lt_0_compat; auto). assert (UP := uro_pos).
  assert (V2P : 0 < uro * (rad * rad)) by (apply Rmult_lt_0_compat; auto).
  assert (ML : bpow radix2 (-100) <= 2 * rad) by lra. assert (MU : 2 * rad <= bpow radix2 100) by (change (bpow radix2 100) with (bpow radix2 (1 + 99)); rewrite bpow_plus; change (bpow radix2 1) with 2; lra).
  assert (N0 : forall x, 0 <= x * x) by (intros; apply Rle_0_sqr).
  destruct MR as [R0 [RB RM]]. apply Rabs_le_inv in EC.
  assert (SMALL : s_norm2 (rv p) <= 2 * rad * (2 * rad) -> s_bound (2 * rad) (rv p)).
  { intros H. unfold s_norm2, s_dot in H. pose proof (N0 (vx (rv p))). pose proof (N0 (vy (rv p))). pose proof (N0 (vz (rv p))). repeat split; apply Rabs_le; split; nra. }
  split.
  - intros FAR. assert (L : nltb c (vlength2 p : F64) = true); [|rewrite L; reflexivity].
    destruct (Rle_lt_dec (s_norm2 (rv p)) (2 * rad * (2 * rad))) as [H|H].
    + destruct (len2_ap (2 * rad) ML MU p (conj FQ (SMALL H))) as [FL [_ EL]]. apply Rabs_le_inv in EL. replace ((2 * rad) ^ 2) with (4 * (rad * rad)) in EL by ring.
      rewrite (ltb_R c (vlength2 p) FC FL). apply Rltb_true. lra.
    + set (K := Rmax (Rabs (vx (rv p))) (Rmax (Rabs (vy (rv p))) (Rabs (vz (rv p))))).
      destruct BP as [B1 [B2 B3]].
      assert (K1 : Rabs (vx (rv p)) <= K) by apply Rmax_l. assert (K2 : Rabs (vy (rv p)) <= K) by (eapply Rle_trans; [apply Rmax_l|apply Rmax_r]). assert (K3 : Rabs (vz (rv p)) <= K) by (eapply Rle_trans; [apply Rmax_r|apply Rmax_r]).
      assert (KU : K <= bpow radix2 100) by (repeat apply Rmax_lub; auto).
      assert (SQ : forall x, Rabs x * Rabs x = x * x) by (intros; rewrite <- Rabs_mult; apply Rabs_pos_eq; auto).
      assert (KP : 0 <= K) by (eapply Rle_trans; [apply Rabs_pos|exact K1]).
      assert (KN : s_norm2 (rv p) <= 3 * (K * K)).
      { unfold s_norm2, s_dot. rewrite <- (SQ (vx (rv p))), <- (SQ (vy (rv p))), <- (SQ (vz (rv p))).
        pose proof (Rmult_le_compat _ _ _ _ (Rabs_pos _) (Rabs_pos _) K1 K1). pose proof (Rmult_le_compat _ _ _ _ (Rabs_pos _) (Rabs_pos _) K2 K2). pose proof (Rmult_le_compat _ _ _ _ (Rabs_pos _) (Rabs_pos _) K3 K3). lra. }
      assert (KK : K * K <= s_norm2 (rv p)).
      { pose proof (N0 (vx (rv p))). pose proof (N0 (vy (rv p))). pose proof (N0 (vz (rv p))). unfold s_norm2, s_dot. unfold K, Rmax.
        destruct (Rle_dec (Rabs (vy (rv p))) (Rabs (vz (rv p)))); destruct (Rle_dec _ _); rewrite SQ; lra. }
      assert (KL : rad <= K) by (apply Rnot_lt_le; intro; nra).
      destruct (len2_ap K ltac:(lra) KU p) as [FL [_ EL]]; [split; [auto|repeat split; auto]|]. apply Rabs_le_inv in EL. replace (K ^ 2) with (K * K) in EL by ring.
      rewrite (ltb_R c (vlength2 p) FC FL). apply Rltb_true. assert (uro * (K * K) <= uro * s_norm2 (rv p)) by (apply uro_le; auto). unfold uro in *. lra.
  - intros NEAR G.
    assert (BR : s_bound (2 * rad) (rv p)) by (apply SMALL; nra).
    assert (L : nltb c (vlength2 p : F64) = false).
    { destruct (len2_ap (2 * rad) ML MU p (conj FQ BR)) as [FL [_ EL]]. apply Rabs_le_inv in EL. replace ((2 * rad) ^ 2) with (4 * (rad * rad)) in EL by ring.
      rewrite (ltb_R c (vlength2 p) FC FL). apply Rltb_false. lra. }
    rewrite L. clear L. set (x := nmul (nlit 11 10) (nsqrt c)) in *. clearbody x.
    assert (BV : forall v, In v (map rv (m_points m)) -> s_bound (2 * rad) v).
    { intros v I. specialize (RB v I). unfold s_norm in RB. assert (P : 0 <= s_dot v v) by (unfold s_dot; pose proof (N0 (vx v)); pose proof (N0 (vy v)); pose proof (N0 (vz v)); lra).
      assert (Q : s_dot v v <= rad * rad) by (rewrite <- (sqrt_sqrt _ P); apply Rmult_le_compat; auto using sqrt_pos).
      unfold s_dot in Q. pose proof (N0 (vx v)). pose proof (N0 (vy v)). pose proof (N0 (vz v)). repeat split; apply Rabs_le; split; nra. }
    set (d := B2R x - 11 / 10 * rad) in *. assert (EX : B2R x = 11 / 10 * rad + d) by (unfold d; ring).
    set (q := V3 x n0 n0 : vec3 F64). assert (Z0 : B2R (n0 : F64) = 0) by (destruct (ofZ_R 0 ltac:(lia)) as [_ E]; exact E).
    assert (RQ : rv q = V3 (11 / 10 * rad + d) 0 0) by (unfold rv, q; cbn [vx vy vz]; rewrite EX, Z0; reflexivity).
    assert (PQ : pnt (2 * rad) q).
    { split; [repeat split; auto|]. rewrite RQ. apply Rabs_le_inv in EO. repeat split; cbn [vx vy vz]; rewrite ?Rabs_R0; try lra. apply Rabs_le. unfold uro in *. lra. }
    assert (SC : forall t, In t l -> wide (2 * rad) (rv p) (rv q) t /\ nz1 (rv p) (rv q) t /\ segt (rv p) (rv q) t = segt (rv p) (s_outside rad) t /\ s_generic (rv p) (s_outside rad) t).
    { intros [[a b] cc] I. rewrite RQ. destruct (soup_in _ _ _ _ _ _ S I) as [A [B C]]. apply (shift_clear rad (rv p) d (a, b, cc)); auto. }
    destruct (loop_F (2 * rad) ML MU (m_points m) p q (m_tris m) l h00 S) as [zs [F E]].
    + intros v I. split; [auto|apply BV; apply in_map; auto].
    + split; auto.
    + exact PQ.
    + intros t I. apply SC; auto.
    + rewrite E. f_equal. f_equal. cbn [h_count h00]. rewrite Z.add_0_l. rewrite (crossing_segs (rv p) (rv q) l zs); auto; [|intros t I; apply SC; auto].
      f_equal. apply map_ext_in. intros t I. apply SC; auto.
Qed.
Lemma robust_generic : forall rad p t, 0 < rad -> s_robust rad p t -> s_generic p (s_outside rad) t.
Proof.
  intros rad p [[a b] c] RP [G1 [G2 [G3 [G4 G5]]]]. assert (UP := uro_pos).
  assert (A : forall n, 0 < uro * rad ^ n) by (intros; apply Rmult_lt_0_compat; auto using pow_lt). pose proof (A 2%nat). pose proof (A 3%nat). pose proof (A 6%nat).
  unfold s_generic. repeat split; lra.
Qed.
