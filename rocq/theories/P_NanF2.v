(** NaN depths of the depth camera, on the doubles and floats of the code: rows, triangles, meshes and images *)
From Coq Require Import ZArith NArith List Bool Lia Reals Lra Permutation.
From Flocq Require Import Core BinarySingleNaN.
From Verif Require Import Num NumOrd MathTypes Outcome Mesh P_Tac SpecRound P_Round P_OctF P_F32 P_RayF P_KeyF P_HeightF P_InsideF P_MeshGeo Depth P_Depth P_Depth2 P_Depth3 P_NanF.
Import ListNotations.
Local Open Scope R_scope.

Definition nan_first (ps : list (pixel F64)) : Prop := forall p, In p ps -> is_nan (px_d p) = true -> px_x p = 0%Z.
Lemma nan_first_app : forall a b, nan_first a -> nan_first b -> nan_first (a ++ b).
Proof. intros a b A B p I. apply in_app_or in I as [I|I]; auto. Qed.
Lemma nan_first_nil : nan_first [].
Proof. intros p []. Qed.

Lemma b2 : forall e, gen32 (bpow radix2 (Z.max (-149) e)).
Proof. intros e. apply generic_format_bpow. unfold FLT_exp. lia. Qed.
Lemma bd : forall e, bpow radix2 e + bpow radix2 e = bpow radix2 (1 + e).
Proof. intros e. rewrite bpow_plus. change (bpow radix2 1) with 2. ring. Qed.
Lemma gb : forall e, (-149 <= e)%Z -> gen32 (bpow radix2 e).
Proof. intros e L. replace e with (Z.max (-149) e) by lia. apply b2. Qed.

Lemma bindR : forall (A B : Type) (x : outcome A) (k : A -> outcome B) b, obind x k = Ret b -> exists a, x = Ret a /\ k a = Ret b.
Proof. intros A B [a| | |] k b H; try discriminate. exists a. auto. Qed.

Lemma rows_nan : forall n k w y (xs xsd xe xed ds dsd de ded : F64) i ps, (0 <= k)%Z -> (k + Z.of_nat n <= 2 ^ 24)%Z ->
  ok (X98 k) xs -> ok (X98 k) xe -> ok (X98 k) ds -> ok (X98 k) de ->
  ((2 <= n)%nat -> ok (X98 1) xsd /\ ok (X98 1) xed /\ ok (X98 1) dsd /\ ok (X98 1) ded) ->
  rows n w y xs xsd xe xed ds dsd de ded i = Ret ps -> nan_first ps.
Proof.
  induction n as [|n IH]; intros k w y xs xsd xe xed ds dsd de ded i ps K KN O1 O2 O3 O4 SL H.
  { cbn [rows] in H. apply ret_inj in H. subst ps. apply nan_first_nil. }
  cbn [rows] in H. apply bindR in H as [a [HA H]]. apply bindR in H as [b [HB H]]. apply ret_inj in H. subst ps. apply nan_first_app.
  - destruct (X98_ok k ltac:(lia)) as [XK _]. destruct (row_nan w y xs xe ds de i a) as [A _]; auto; apply (ok_le (X98 k)); auto.
  - destruct n as [|n]; [cbn [rows] in HB; apply ret_inj in HB; subst b; apply nan_first_nil|].
    destruct (SL ltac:(lia)) as [S1 [S2 [S3 S4]]].
    assert (E : X98 k + X98 1 <= X98 (k + 1)) by (unfold X98; rewrite plus_IZR; lra).
    assert (G : gen32 (X98 (k + 1))) by (apply gen32_mult; lia).
    assert (L : X98 (k + 1) <= bpow radix2 127) by (destruct (X98_ok (k + 1) ltac:(lia)) as [A _]; eapply Rle_trans; [exact A|apply bpow_le; lia]).
    apply (IH (k + 1)%Z w (y + 1)%Z (fadd xs xsd) xsd (fadd xe xed) xed (fadd ds dsd) dsd (fadd de ded) ded i b); auto; try lia;
      eapply f_add; eauto.
Qed.

Lemma part_nan : forall w h ys ye (xs xsd xe xed ds dsd de ded : F64) i ps, (h + 2 <= 2 ^ 24)%Z -> (Z.abs ys <= 2 ^ 31)%Z ->
  ok (bpow radix2 66) xs -> ok (bpow radix2 66) xe -> ok (bpow radix2 66) ds -> ok (bpow radix2 66) de ->
  ((ys < ye)%Z -> ok (bpow radix2 66) xsd /\ ok (bpow radix2 66) xed /\ ok (bpow radix2 66) dsd /\ ok (bpow radix2 66) ded) ->
  drawTrianglePart w h ys ye xs xsd xe xed ds dsd de ded i = Ret ps -> nan_first ps.
Proof.
  intros w h ys ye xs xsd xe xed ds dsd de ded i ps HH HY O1 O2 O3 O4 SL H.
  assert (L1 : bpow radix2 66 <= X98 1) by (unfold X98; rewrite Rmult_1_l; apply bpow_le; lia).
  assert (L2 : X98 1 + X98 1 = X98 2) by (unfold X98; ring). assert (P1 : 0 <= X98 1) by apply (X98_ok 1 ltac:(lia)).
  unfold drawTrianglePart in H. destruct (Z.ltb_spec ys 0) as [N|N].
  - apply bindR in H as [neg [HN H]]. unfold ichk in HN. destruct (_ && _)%bool eqn:IR; [|discriminate]. apply ret_inj in HN. subst neg.
    destruct (Z.to_nat (Z.min (h - 1) ye + 1)) as [|n] eqn:EN; [cbn [rows] in H; apply ret_inj in H; subst ps; apply nan_first_nil|].
    rewrite ?andb_true_iff in IR; destruct SL as [S1 [S2 [S3 S4]]]; [lia|]. destruct (ok_ofZ (- ys) ltac:(lia)) as [OK _].
    assert (M : forall v d, ok (bpow radix2 66) v -> ok (bpow radix2 66) d -> ok (X98 2) (fadd v (fmul d (fofZ (- ys))))).
    { intros v d V D. assert (PM : ok (X98 1) (fmul d (fofZ (- ys)))).
      { unfold X98. rewrite Rmult_1_l. change 98%Z with (66 + 32)%Z. eapply f_mul; [exact D|exact OK|rewrite bpow_plus; lra|apply gb; lia|apply bpow_le; lia]. }
      eapply f_add; [exact V|exact PM|lra|apply gen32_mult; lia|]. destruct (X98_ok 2 ltac:(lia)) as [A _]. eapply Rle_trans; [exact A|apply bpow_le; lia]. }
    eapply (rows_nan (S n) 2); [lia|lia| | | | | |exact H]; auto.
    intros _. split; [|split; [|split]]; eapply ok_le; eauto.
  - assert (L3 : bpow radix2 66 <= X98 2) by lra.
    eapply (rows_nan (Z.to_nat (Z.min (h - 1) ye - ys + 1)) 2); [lia|lia| | | | | |exact H]; try (eapply ok_le; eauto; fail).
    intros N2. destruct SL as [S1 [S2 [S3 S4]]]; [lia|]. split; [|split; [|split]]; eapply ok_le; eauto.
Qed.

(** a projected vertex: floats, and an inverse depth of moderate size *)
Definition okv (p : vec3 F64) : Prop := (fin (vx p) = true -> gen32 (B2R (vx p))) /\ (fin (vy p) = true -> gen32 (B2R (vy p))) /\ ok (bpow radix2 32) (vz p).
Lemma okv_x : forall (x : F64) z, (fin x = true -> gen32 (B2R x)) -> toint x = Some z -> ok (bpow radix2 32) x /\ (Z.abs z <= 2 ^ 31)%Z.
Proof.
  intros x z G H. apply toint_F in H as [F [E IR]]. unfold int_range in IR.
  split; [|lia]. split; auto. split; auto. apply Rle_trans with (IZR (2 ^ 31 + 1)).
  - destruct (Rle_lt_dec 0 (B2R x)) as [P|P].
    + rewrite Rabs_right by lra. rewrite Ztrunc_floor in E by auto. pose proof (Zfloor_ub (B2R x)) as U. rewrite E in U. apply Rlt_le. eapply Rlt_le_trans; [exact U|]. rewrite <- plus_IZR. apply IZR_le. lia.
    + rewrite Rabs_left by auto. rewrite Ztrunc_ceil in E by lra. pose proof (Zceil_lb (B2R x)) as U. rewrite E in U. rewrite plus_IZR. assert (IZR (- 2 ^ 31) <= IZR z) by (apply IZR_le; lia). rewrite opp_IZR in H. lra.
  - change (bpow radix2 32) with (IZR (2 ^ 32)). apply IZR_le. lia.
Qed.

Lemma slope_ok : forall (a b : F64) m, ok (bpow radix2 65) a -> ok (bpow radix2 65) b -> (0 < m <= 2 ^ 32)%Z -> ok (bpow radix2 66) (fdiv (fsub a b) (fofZ m)).
Proof.
  intros a b m A B M. destruct (ok_ofZ m ltac:(lia)) as [[FM _] OM]. apply f_div; auto; [|apply OM; lia|apply gb; lia|apply bpow_le; lia].
  eapply f_sub; [exact A|exact B|rewrite bd; right; reflexivity|apply gb; lia|apply bpow_le; lia].
Qed.
Lemma prime_ok : forall (a b : F64) p q r, ok (bpow radix2 32) a -> ok (bpow radix2 32) b -> (Z.abs p <= 2 ^ 32)%Z -> (Z.abs q <= 2 ^ 32)%Z -> (0 < r <= 2 ^ 32)%Z ->
  ok (bpow radix2 65) (fdiv (fadd (fmul a (fofZ p)) (fmul b (fofZ q))) (fofZ r)).
Proof.
  intros a b p q r A B P Q R. destruct (ok_ofZ p P) as [OP _]. destruct (ok_ofZ q Q) as [OQ _]. destruct (ok_ofZ r ltac:(lia)) as [[FR _] OR].
  apply f_div; auto; [|apply OR; lia|apply gb; lia|apply bpow_le; lia].
  assert (M : forall u v, ok (bpow radix2 32) u -> ok (bpow radix2 32) v -> ok (bpow radix2 64) (fmul u v)).
  { intros u v U V. eapply f_mul; [exact U|exact V|rewrite <- bpow_plus; right; reflexivity|apply gb; lia|apply bpow_le; lia]. }
  eapply f_add; [apply M; eauto|apply M; eauto|rewrite bd; right; reflexivity|apply gb; lia|apply bpow_le; lia].
Qed.

Lemma or_ubR : forall (A : Type) (x : option A) a, or_ub x = Ret a -> x = Some a.
Proof. intros A [x|] a H; [injection H as ->; auto|discriminate]. Qed.
Lemma ichkR : forall a b, ichk a = Ret b -> b = a /\ (Z.abs a <= 2 ^ 31)%Z.
Proof. intros a b H. unfold ichk in H. destruct (_ && _)%bool eqn:E; [|discriminate]. apply ret_inj in H. apply andb_prop in E as [E1 E2]. lia. Qed.
Lemma sort3_in : forall f (a b c p q r : vec3 F64) (P : vec3 F64 -> Prop), sort3 f a b c = (p, q, r) -> P a -> P b -> P c -> P p /\ P q /\ P r.
Proof.
  intros f a b c p q r P S A B C. pose proof (sort_perm f a b c p q r S) as PM.
  assert (H : forall v, In v [p; q; r] -> P v). { intros v I. apply (Permutation_in v (Permutation_sym PM)) in I. destruct I as [<-|[<-|[<-|[]]]]; auto. }
  split; [|split]; apply H; cbn; auto.
Qed.

Lemma tri2d_nan : forall cull w h (p1 p2 p3 : vec3 F64) i ps, (h + 2 <= 2 ^ 24)%Z -> okv p1 -> okv p2 -> okv p3 -> drawTriangle2D cull w h p1 p2 p3 i = Ret ps -> nan_first ps.
Proof.
  intros cull w h p1 p2 p3 i ps HH V1 V2 V3 H. unfold drawTriangle2D in H. destruct (_ || _)%bool; [|apply ret_inj in H; subst ps; apply nan_first_nil].
  apply bindR in H as [y1 [E1 H]]. apply or_ubR in E1. apply bindR in H as [y2 [E2 H]]. apply or_ubR in E2. apply bindR in H as [y3 [E3 H]]. apply or_ubR in E3.
  apply bindR in H as [x1 [D1 H]]. apply or_ubR in D1. apply bindR in H as [x2 [D2 H]]. apply or_ubR in D2. apply bindR in H as [x3 [D3 H]]. apply or_ubR in D3.
  cbv zeta in H. destruct (_ && _ && _ && _)%bool; [|apply ret_inj in H; subst ps; apply nan_first_nil].
  set (Q := fun p : vec3 F64 => ok (bpow radix2 32) (vx p) /\ ok (bpow radix2 32) (vz p) /\ exists z, toint (vy p) = Some z /\ (Z.abs z <= 2 ^ 31)%Z).
  assert (QQ : Q p1 /\ Q p2 /\ Q p3).
  { assert (K : forall p x y, okv p -> toint (vx p) = Some x -> toint (vy p) = Some y -> Q p).
    { intros p x y [GX [GY OZ]] TX TY. split; [apply (okv_x _ _ GX TX)|]. split; auto. exists y. split; auto. apply (okv_x _ _ GY TY). }
    split; [|split]; eapply K; eauto. }
  destruct QQ as [Q1 [Q2 Q3]].
  assert (W32 : forall x, ok (bpow radix2 32) x -> ok (bpow radix2 65) x) by (intros x O; eapply ok_le; [exact O|apply bpow_le; lia]).
  assert (W65 : forall x, ok (bpow radix2 65) x -> ok (bpow radix2 66) x) by (intros x O; eapply ok_le; [exact O|apply bpow_le; lia]).
  destruct (Z.eqb_spec (Z.min y1 (Z.min y2 y3)) (Z.max y1 (Z.max y2 y3))) as [FLAT|TALL].
  - destruct (sort3 vx p1 p2 p3) as [[pa pb] pc] eqn:S. destruct (sort3_in vx _ _ _ _ _ _ Q S Q1 Q2 Q3) as [QA [QB QC]].
    assert (SAME : forall p, Q p -> In p [p1; p2; p3] -> toint (vy p) = Some y1).
    { intros p _ [<-|[<-|[<-|[]]]]; auto; rewrite ?E2, ?E3; f_equal; lia. }
    pose proof (sort_perm _ _ _ _ _ _ _ S) as PM.
    assert (TA : toint (vy pa) = Some y1) by (apply SAME; auto; apply (Permutation_in pa (Permutation_sym PM)); cbn; auto).
    assert (TB : toint (vy pb) = Some y1) by (apply SAME; auto; apply (Permutation_in pb (Permutation_sym PM)); cbn; auto).
    rewrite TA, TB in H. cbn [or_ub obind] in H. destruct QA as [XA [ZA [za [TA' BA]]]]. destruct QC as [XC [ZC _]]. rewrite TA in TA'. injection TA' as ->.
    eapply part_nan; [exact HH|exact BA| | | | | |exact H]; auto. lia.
  - destruct (sort3 vy p1 p2 p3) as [[pa pb] pc] eqn:S. destruct (sort3_in vy _ _ _ _ _ _ Q S Q1 Q2 Q3) as [[XA [ZA [a [TA BA]]]] [[XB [ZB [b [TB BB]]]] [XC [ZC [c [TC BC]]]]]].
    rewrite TA, TB, TC in H. cbn [or_ub obind] in H. destruct (sort_span _ _ _ _ _ _ _ _ _ _ _ _ S E1 E2 E3 TA TB TC) as [ORD [EA EC]].
    apply bindR in H as [m1 [M1 H]]. apply ichkR in M1 as [-> R1]. apply bindR in H as [m2 [M2 H]]. apply ichkR in M2 as [-> R2]. apply bindR in H as [m3 [M3 H]]. apply ichkR in M3 as [-> R3].
    set (pp := prime pa pc (c - b) (b - a) (c - a)) in *.
    assert (PX : ok (bpow radix2 65) (vx pp)) by (apply prime_ok; auto; lia). assert (PZ : ok (bpow radix2 65) (vz pp)) by (apply prime_ok; auto; lia). clearbody pp.
    destruct (if nltb (vx pb) (vx pp) then (pb, pp) else (pp, pb)) as [u v] eqn:UV.
    assert (UO : ok (bpow radix2 65) (vx u) /\ ok (bpow radix2 65) (vz u) /\ ok (bpow radix2 65) (vx v) /\ ok (bpow radix2 65) (vz v)).
    { destruct (nltb (vx pb) (vx pp)); injection UV as <- <-; auto. }
    destruct UO as [UX [UZ [VX VZ]]]. apply bindR in H as [s1 [H1 H]]. apply bindR in H as [s2 [H2 H]]. apply ret_inj in H. subst ps. apply nan_first_app.
    + eapply part_nan; [exact HH|exact BA| | | | | |exact H1]; auto. intros L. split; [|split; [|split]]; apply slope_ok; auto; lia.
    + eapply part_nan; [exact HH|exact BB| | | | | |exact H2]; auto. intros L. split; [|split; [|split]]; apply slope_ok; auto; lia.
Qed.

(** *** projected and clipped vertices *)
Lemma nf32_gen : forall x : F64, fin (nf32 x) = true -> gen32 (B2R (nf32 x)).
Proof.
  intros x F. cbn [nf32 NumF] in *. set (z := f64_to_f32 x) in *. clearbody z. assert (FZ : is_finite z = true) by (destruct z; auto).
  destruct (f32_to_f64_spec z FZ) as [_ E]. rewrite E. apply (generic_format_B2R 24 128).
Qed.
Lemma clip_R : fin (near_clip : F64) = true /\ B2R (near_clip : F64) <= - / 16.
Proof.
  destruct (ofZ_R (-1) ltac:(lia)) as [F1 E1]. destruct (ofZ_R 10 ltac:(lia)) as [F2 E2]. split; [reflexivity|].
  change (near_clip : F64) with (ndiv (nofZ (-1)) (nofZ 10) : F64).
  destruct (div_R (nofZ (-1) : F64) (nofZ 10) F1) as [_ E]; [rewrite E2; lra|rewrite E1, E2; pose proof big_ge; rewrite Rabs_left; lra|]. rewrite E, E1, E2.
  apply rnd_le_gen; [|lra]. change (/ 16) with (/ IZR 16). replace (- / 16) with (IZR (-1) * bpow radix2 (-4)) by (cbn; lra).
  apply gen32_gen, gen32_mult; lia.
Qed.
Lemma vert_okv : forall (c : cam F64) q, nltb (vz q) near_clip = true \/ vz q = near_clip -> okv (project_vert c q).
Proof.
  intros c q H. unfold project_vert. unfold okv. cbn [vx vy vz]. split; [apply nf32_gen|]. split; [apply nf32_gen|].
  destruct clip_R as [FC EC]. destruct (fin (vz q)) eqn:F.
  - assert (L : B2R (vz q) <= - / 16). { destruct H as [H|H]; [|rewrite H; exact EC]. rewrite (ltb_R _ _ F FC) in H. rboolH. lra. }
    destruct (opp_R (vz q) F) as [FO EO]. destruct (ofZ_R 1 ltac:(lia)) as [F1 E1]. change (nofZ 1 : F64) with (n1 : F64) in F1, E1.
    assert (B : Rabs (1 / B2R (nopp (vz q))) <= bpow radix2 32).
    { rewrite EO. unfold Rdiv. rewrite Rmult_1_l, Rabs_right by (apply Rle_ge, Rlt_le, Rinv_0_lt_compat; lra). apply Rle_trans with (/ / 16); [apply Rinv_le_contravar; lra|].
      rewrite Rinv_inv. change (bpow radix2 32) with (IZR 4294967296). lra. }
    pose proof big127. assert (bpow radix2 32 <= bpow radix2 127) by (apply bpow_le; lia).
    destruct (div_R n1 (nopp (vz q)) F1) as [FD ED]; [rewrite EO; lra|rewrite E1; lra|]. rewrite E1 in ED.
    destruct (single _ _ (bpow radix2 32) FD ED) as [A [_ C]]; auto; [apply gb; lia|]. split; auto. split; auto. apply nf32_gen. exact A.
  - destruct H as [H|H]; [|rewrite H in F; congruence]. generalize dependent (vz q). intros z HZ FZ.
    destruct z as [s|s| |s m e B]; try discriminate FZ; [|discriminate HZ]. destruct s; [|discriminate HZ].
    change (nf32 (ndiv n1 (nopp (B754_infinity true : F64)))) with (B754_zero false : F64). split; [reflexivity|]. cbn [B2R]. split; [apply generic_format_0|]. rewrite Rabs_R0. apply bpow_ge_0.
Qed.

Lemma clip_verts : forall (p1 p2 p3 a b d : vec3 F64), In (a, b, d) (clip_tri p1 p2 p3) -> forall v, v = a \/ v = b \/ v = d -> nltb (vz v) near_clip = true \/ vz v = near_clip.
Proof.
  intros p1 p2 p3 a b d I. unfold clip_tri in I. cbv zeta in I. assert (CE : forall u v : vec3 F64, vz (clip_edge u v) = near_clip) by reflexivity. cbn [MathTypes.vz] in I.
  destruct (nltb (vz p1) near_clip) eqn:N1, (nltb (vz p2) near_clip) eqn:N2, (nltb (vz p3) near_clip) eqn:N3; cbn [In] in I;
  repeat match goal with H : _ \/ _ |- _ => destruct H end; try contradiction;
  match goal with H : (_, _, _) = (_, _, _) |- _ => apply pair_equal_spec in H as [H HD]; apply pair_equal_spec in H as [HA HB] end; subst a b d;
  intros v [-> | [-> | ->]]; auto.
Qed.

Lemma draw_all_nan : forall (c : cam F64) cull w h ts i ps, (h + 2 <= 2 ^ 24)%Z ->
  (forall a b d, In (a, b, d) ts -> forall v, v = a \/ v = b \/ v = d -> nltb (vz v) near_clip = true \/ vz v = near_clip) ->
  draw_all c cull w h ts i = Ret ps -> nan_first ps.
Proof.
  intros c cull w h. induction ts as [|[[a b] d] ts IH]; intros i ps HH V H; cbn [draw_all] in H.
  - apply ret_inj in H. subst ps. apply nan_first_nil.
  - apply bindR in H as [p [HP H]]. apply bindR in H as [q [HQ H]]. apply ret_inj in H. subst ps. apply nan_first_app.
    + assert (K : forall v, v = a \/ v = b \/ v = d -> okv (project_vert c v)). { intros v I. apply vert_okv. apply (V a b d); [left; reflexivity|auto]. }
      eapply tri2d_nan; [exact HH| | | |exact HP]; apply K; auto.
    + apply (IH i q HH); [|exact HQ]. intros a' b' d' I. apply (V a' b' d'). right. exact I.
Qed.

Lemma loop_nan : forall S (rp : S -> pixel F64 -> outcome S) stop c cull w h pts ts i s s', (h + 2 <= 2 ^ 24)%Z -> render_loop rp stop c cull w h pts ts i s = Ret s' ->
  exists ps, draw_pixels rp s ps = Ret s' /\ nan_first ps.
Proof.
  intros S rp stop c cull w h pts ts. induction ts as [|t ts IH]; intros i s s' HH H; cbn [render_loop] in H.
  - apply ret_inj in H. subst s'. exists []. split; auto. apply nan_first_nil.
  - apply bindR in H as [p1 [_ H]]. apply bindR in H as [p2 [_ H]]. apply bindR in H as [p3 [_ H]]. apply bindR in H as [ps [HP H]]. apply bindR in H as [s1 [HS H]].
    assert (N : nan_first ps) by (eapply draw_all_nan; [exact HH| |exact HP]; intros a b d I; apply (clip_verts _ _ _ _ _ _ I)).
    destruct (stop s1).
    + apply ret_inj in H. subst s1. exists ps. auto.
    + apply IH in H as [qs [Q NQ]]; auto. exists (ps ++ qs). split; [rewrite pixels_app, HS; exact Q|apply nan_first_app; auto].
Qed.
Lemma render_nan : forall S (rp : S -> pixel F64 -> outcome S) stop c m pose cull w h s s', (h + 2 <= 2 ^ 24)%Z -> cam_render rp stop c m pose cull w h s = Ret s' ->
  exists ps, draw_pixels rp s ps = Ret s' /\ nan_first ps.
Proof.
  intros S rp stop c m pose cull w h s s' HH H. unfold cam_render in H. cbv zeta in H.
  destruct (nltb _ _). { apply ret_inj in H. subst s'. exists []. split; [reflexivity|apply nan_first_nil]. }
  destruct (existsb _ _). { eapply loop_nan; eauto. }
  apply ret_inj in H. subst s'. exists []. split; [reflexivity|apply nan_first_nil].
Qed.

(** *** the image of DefaultRenderResult *)
Lemma pixels_nan : forall ps (s s' : drr F64), draw_pixels renderPixel s ps = Ret s' -> nan_first ps ->
  forall x y r', (0 < x)%Z -> get2 (d_img s') y x = Ret r' -> is_nan r' = true -> exists r, get2 (d_img s) y x = Ret r /\ is_nan r = true.
Proof.
  induction ps as [|p ps IH]; intros s s' H N x y r' X G NR; cbn [draw_pixels] in H.
  - apply ret_inj in H. subst s'. eauto.
  - apply bindR in H as [s1 [H1 H]]. destruct (IH _ _ H (fun q I => N q (or_intror I)) x y r' X G NR) as [r1 [G1 N1]].
    destruct (pixel_spec s s1 p H1) as [old [GO [_ [_ [OTH WIN]]]]]. destruct (Z.eq_dec (px_x p) x) as [EX|NX]; [destruct (Z.eq_dec (px_y p) y) as [EY|NY]|].
    + subst x y. destruct (wins old (px_d p)).
      * exfalso. destruct WIN as [WI _]. rewrite WI in G1. apply ret_inj in G1. subst r1. specialize (N p (or_introl eq_refl) N1). lia.
      * subst s1. eauto.
    + destruct (OTH x y) as [A _]; [congruence|]. rewrite A in G1. eauto.
    + destruct (OTH x y) as [A _]; [congruence|]. rewrite A in G1. eauto.
Qed.
(** the row of the topmost vertex of a triangle with more than one row *)
Lemma tri_top : forall cull w h (p1 p2 p3 t : vec3 F64) i ps y1 y2 y3 yt, okv p1 -> okv p2 -> okv p3 -> drawTriangle2D cull w h p1 p2 p3 i = Ret ps -> ps <> [] ->
  toint (vy p1) = Some y1 -> toint (vy p2) = Some y2 -> toint (vy p3) = Some y3 ->
  In t [p1; p2; p3] -> (forall v, In v [p1; p2; p3] -> v = t \/ B2R (vy t) < B2R (vy v)) -> toint (vy t) = Some yt -> (0 <= yt < Z.max y1 (Z.max y2 y3))%Z -> -1 < B2R (vx t) < 0 ->
  exists p, In p ps /\ px_x p = 0%Z /\ px_y p = yt /\ is_nan (px_d p) = true.
Proof.
  intros cull w h p1 p2 p3 t i ps y1 y2 y3 yt V1 V2 V3 H NE E1 E2 E3 IT LOW ET TALL XR.
  assert (W0 : (0 < w)%Z). { destruct ps as [|q qs]; [congruence|]. destruct (tri2d_in _ _ _ _ _ _ _ _ q H (or_introl eq_refl)) as [[A _] _]. lia. }
  unfold drawTriangle2D in H.
  destruct (_ || _)%bool; [|apply ret_inj in H; congruence]. rewrite E1, E2, E3 in H. cbn [or_ub obind] in H.
  apply bindR in H as [x1 [D1 H]]. apply or_ubR in D1. apply bindR in H as [x2 [D2 H]]. apply bindR in H as [x3 [D3 H]]. apply or_ubR in D2. apply or_ubR in D3.
  cbv zeta in H. destruct (_ && _ && _ && _)%bool eqn:BB; [|apply ret_inj in H; congruence].
  rewrite !andb_true_iff in BB. destruct BB as [[[B1 B2] B3] B4].
  assert (OT : okv t /\ exists xt, toint (vx t) = Some xt) by (destruct IT as [<-|[<-|[<-|[]]]]; eauto). destruct OT as [[GX [GY OZ]] [xt DT]].
  assert (FY : forall v, In v [p1; p2; p3] -> fin (vy v) = true) by (apply toint_F in E1; apply toint_F in E2; apply toint_F in E3; intros v [<-|[<-|[<-|[]]]]; tauto).
  assert (MIN : yt = Z.min y1 (Z.min y2 y3)).
  { assert (LE : forall v z, In v [p1; p2; p3] -> toint (vy v) = Some z -> (yt <= z)%Z).
    { intros v z I TZ. apply toint_F in TZ as [_ [<- _]]. apply toint_F in ET as [_ [<- _]]. destruct (LOW v I) as [->|L]; [lia|]. apply Ztrunc_le. lra. }
    pose proof (LE p1 y1 ltac:(cbn; auto) E1). pose proof (LE p2 y2 ltac:(cbn; auto) E2). pose proof (LE p3 y3 ltac:(cbn; auto) E3).
    assert (yt = y1 \/ yt = y2 \/ yt = y3) by (destruct IT as [<-|[<-|[<-|[]]]]; rewrite ET in *; [left|right; left|right; right]; congruence). lia. }
  destruct (Z.eqb_spec (Z.min y1 (Z.min y2 y3)) (Z.max y1 (Z.max y2 y3))) as [FLAT|_]; [lia|].
  destruct (sort3 vy p1 p2 p3) as [[pa pb] pc] eqn:S.
  assert (PA : pa = t).
  { pose proof (sort_perm _ _ _ _ _ _ _ S) as PM.
    assert (NN : forall v, v = p1 \/ v = p2 \/ v = p3 -> neqb (vy v) (vy v) = true) by (intros v [-> | [-> | ->]]; eapply toint_real; eauto).
    destruct (sort_sorted vy _ _ _ _ _ _ S NN) as [S1 S2].
    assert (IA : In pa [p1; p2; p3]) by (apply (Permutation_in pa (Permutation_sym PM)); cbn; auto).
    assert (IB : In pb [p1; p2; p3]) by (apply (Permutation_in pb (Permutation_sym PM)); cbn; auto).
    assert (IC : In pc [p1; p2; p3]) by (apply (Permutation_in pc (Permutation_sym PM)); cbn; auto).
    rewrite (leb_R _ _ (FY _ IA) (FY _ IB)) in S1. rewrite (leb_R _ _ (FY _ IB) (FY _ IC)) in S2. rboolH.
    destruct (LOW pa IA) as [E|L]; auto. exfalso. apply (Permutation_in t PM) in IT. destruct IT as [<-|[<-|[<-|[]]]]; lra. }
  subst pa. rewrite ET in H. cbn [or_ub obind] in H. apply bindR in H as [b [HB H]]. apply or_ubR in HB. apply bindR in H as [cc [HC H]]. apply or_ubR in HC.
  apply bindR in H as [m1 [M1 H]]. apply ichkR in M1 as [-> R1]. apply bindR in H as [m2 [M2 H]]. apply ichkR in M2 as [-> R2]. apply bindR in H as [m3 [M3 H]]. apply ichkR in M3 as [-> R3].
  destruct (sort_span _ _ _ _ _ _ _ _ _ _ _ _ S E1 E2 E3 ET HB HC) as [ORD [EA EC]].
  destruct (if nltb _ _ then _ else _) as [u v]. apply bindR in H as [s1 [H1 H]]. apply bindR in H as [s2 [H2 H]]. apply ret_inj in H. subst ps.
  unfold drawTrianglePart in H1. destruct (Z.ltb_spec yt 0) as [N|N]; [lia|].
  destruct (Z.to_nat (Z.min (h - 1) b - yt + 1)) as [|n] eqn:EN; [lia|]. cbn [rows] in H1. apply bindR in H1 as [r0 [HR H1]]. apply bindR in H1 as [rest [_ H1]]. apply ret_inj in H1. subst s1.
  destruct (okv_x _ _ GX DT) as [OX _].
  assert (W : forall z, ok (bpow radix2 32) z -> ok (bpow radix2 123) z) by (intros z O; eapply ok_le; [exact O|apply bpow_le; lia]).
  destruct (row_nan w yt (vx t) (vx t) (vz t) (vz t) i r0) as [_ [_ K]]; auto.
  destruct K as [p [I NP]]; [split; [lia|auto]|]. exists p. split; [apply in_or_app; left; apply in_or_app; left; exact I|].
  destruct (row_in _ _ _ _ _ _ _ _ _ HR I) as [_ [PY _]]. destruct (row_nan w yt (vx t) (vx t) (vz t) (vz t) i r0) as [PX _]; auto.
Qed.
