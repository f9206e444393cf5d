(** Closed surfaces and crossing numbers *)
From Coq Require Import ZArith NArith List Bool Lia Reals Lra Permutation.
From Verif Require Import Num MathTypes Outcome Mesh Box Spec P_Tac P_Math P_Mesh P_MeshGeo ShapeQuery SpecQuery P_Query.
Import ListNotations.
Local Open Scope R_scope.

(** ** sums over the edges of a closed surface vanish for antisymmetric functions *)
Lemma zsum_app : forall a b, s_zsum (a ++ b) = (s_zsum a + s_zsum b)%Z.
Proof. induction a as [|x a IH]; intros b; [reflexivity|]. change (x + s_zsum (a ++ b) = x + s_zsum a + s_zsum b)%Z. rewrite IH. lia. Qed.
Lemma zsum_perm : forall a b, Permutation a b -> s_zsum a = s_zsum b.
Proof. unfold s_zsum. induction 1; cbn [fold_right]; lia. Qed.
Definition swap (e : N * N) : N * N := (snd e, fst e).
Lemma closed_sum : forall ts (f : N * N -> Z), s_closed_surface ts -> (forall e, In e (s_edges ts) -> f (swap e) = (- f e)%Z) ->
  s_zsum (map f (s_edges ts)) = 0%Z.
Proof.
  intros ts f [ND SY] A. set (E := s_edges ts) in *.
  assert (P : Permutation (map swap E) E).
  { apply NoDup_Permutation; auto.
    - apply FinFun.Injective_map_NoDup; auto. intros [a b] [c d] H. cbv in H. injection H as -> ->. reflexivity.
    - intros [a b]. split; intros H.
      + apply in_map_iff in H. destruct H as [[c d] [H I]]. cbv in H. injection H as -> ->. apply SY in I. apply I.
      + apply in_map_iff. exists (b, a). split; [reflexivity|]. apply SY. auto. }
  assert (S : s_zsum (map f (map swap E)) = (- s_zsum (map f E))%Z).
  { clear P ND SY. revert A. induction E as [|e E IH]; intros A; [reflexivity|]. cbn [map].
    change (f (swap e) + s_zsum (map f (map swap E)) = - (f e + s_zsum (map f E)))%Z. rewrite IH, A; [lia|left; auto|]. intros; apply A; right; auto. }
  apply (Permutation_map f) in P. apply zsum_perm in P. lia.
Qed.
Lemma edges_sum : forall (f : N * N -> Z) ts, s_zsum (map f (s_edges ts)) = s_zsum (map (fun t => let '(i, j, k) := t in f (i, j) + f (j, k) + f (k, i))%Z ts).
Proof.
  induction ts as [|[[i j] k] ts IH]; [reflexivity|]. cbn [s_edges map].
  change (f (i, j) + (f (j, k) + (f (k, i) + s_zsum (map f (s_edges ts)))) = (f (i, j) + f (j, k) + f (k, i)) + s_zsum (map (fun t => let '(i, j, k) := t in f (i, j) + f (j, k) + f (k, i)) ts))%Z.
  rewrite IH. lia.
Qed.

(** ** crossings of a line *)
Definition sgn3 (a b c : R) : Z :=
  if Rlt_dec 0 a then if Rlt_dec 0 b then if Rlt_dec 0 c then 1%Z else 0%Z else 0%Z
  else if Rlt_dec a 0 then if Rlt_dec b 0 then if Rlt_dec c 0 then (-1)%Z else 0%Z else 0%Z else 0%Z.
Definition chi (ya yb s : R) : Z :=
  if Rlt_dec ya 0 then (if Rlt_dec yb 0 then 0%Z else if Rlt_dec 0 s then 1%Z else 0%Z)
  else if Rlt_dec yb 0 then (if Rlt_dec s 0 then (-1)%Z else 0%Z) else 0%Z.
Lemma chi_anti : forall ya yb s, chi yb ya (- s) = (- chi ya yb s)%Z.
Proof. intros. unfold chi. destruct (Rlt_dec ya 0), (Rlt_dec yb 0), (Rlt_dec 0 s), (Rlt_dec s 0), (Rlt_dec 0 (- s)), (Rlt_dec (- s) 0); try reflexivity; lra. Qed.
Lemma mul_pp : forall a b, 0 < a -> 0 < b -> 0 < a * b. Proof. intros; nra. Qed.
Lemma winding2 : forall ya yb yc s1 s2 s3, s1 <> 0 -> s2 <> 0 -> s3 <> 0 ->
  s1 * yc + s2 * ya + s3 * yb = 0 -> (ya = 0 -> yb = 0 -> s1 = 0) ->
  (chi ya yb s1 + chi yb yc s2 + chi yc ya s3)%Z = sgn3 s1 s2 s3.
Proof.
  intros ya yb yc s1 s2 s3 N1 N2 N3 E ND.
  assert (C : forall s y, s <> 0 -> (0 < s /\ y < 0 /\ s * y < 0) \/ (0 < s /\ 0 <= y /\ 0 <= s * y) \/ (s < 0 /\ y < 0 /\ 0 < s * y) \/ (s < 0 /\ 0 <= y /\ s * y <= 0)).
  { intros s y N. destruct (Rlt_le_dec 0 s), (Rlt_le_dec y 0); [left|right; left|right; right; left|right; right; right]; repeat split; try lra; nra. }
  assert (Z0 : forall s y, s <> 0 -> s * y = 0 -> y = 0) by (intros s y N H; apply Rmult_integral in H; lra).
  pose proof (Z0 s2 ya N2) as Z1. pose proof (Z0 s3 yb N3) as Z2.
  unfold chi, sgn3.
  destruct (C s1 yc N1) as [[A1 [A2 A3]]|[[A1 [A2 A3]]|[[A1 [A2 A3]]|[A1 [A2 A3]]]]];
  destruct (C s2 ya N2) as [[B1 [B2 B3]]|[[B1 [B2 B3]]|[[B1 [B2 B3]]|[B1 [B2 B3]]]]];
  destruct (C s3 yb N3) as [[D1 [D2 D3]]|[[D1 [D2 D3]]|[[D1 [D2 D3]]|[D1 [D2 D3]]]]]; try (exfalso; lra);
  destruct (Rlt_dec ya 0); try (exfalso; lra); destruct (Rlt_dec yb 0); try (exfalso; lra); destruct (Rlt_dec yc 0); try (exfalso; lra);
  destruct (Rlt_dec 0 s1); try (exfalso; lra); destruct (Rlt_dec s1 0); try (exfalso; lra);
  destruct (Rlt_dec 0 s2); try (exfalso; lra); destruct (Rlt_dec s2 0); try (exfalso; lra);
  destruct (Rlt_dec 0 s3); try (exfalso; lra); destruct (Rlt_dec s3 0); try (exfalso; lra); try reflexivity;
  (exfalso; apply N1; apply ND; [apply Z1|apply Z2]; lra).
Qed.
Definition yy (p q w a : vec3 R) : R := s_det (s_diff q p) w (s_diff a p).
Definition cross_nz (d w : vec3 R) : Prop :=
  0 < (vy d * vz w - vz d * vy w) ^ 2 + (vz d * vx w - vx d * vz w) ^ 2 + (vx d * vy w - vy d * vx w) ^ 2.
Lemma yy_rel : forall p q w a b c, s_orient p q a b * yy p q w c + s_orient p q b c * yy p q w a + s_orient p q c a * yy p q w b = 0.
Proof. intros. unfold yy. unq. ring. Qed.
Lemma yy_nd : forall p q w a b, cross_nz (s_diff q p) w -> yy p q w a = 0 -> yy p q w b = 0 -> s_orient p q a b = 0.
Proof.
  intros p q w a b C A B. unfold cross_nz, yy in *. unfold s_orient. set (d := s_diff q p) in *. set (a' := s_diff a p) in *. set (b' := s_diff b p) in *.
  clearbody d a' b'. destruct d as [d1 d2 d3], w as [w1 w2 w3], a' as [a1 a2 a3], b' as [b1 b2 b3]. unfold s_det in *. cbn [vx vy vz] in *.
  set (n1 := d2 * w3 - d3 * w2) in *. set (n2 := d3 * w1 - d1 * w3) in *. set (n3 := d1 * w2 - d2 * w1) in *.
  apply Rmult_eq_reg_l with (n1 ^ 2 + n2 ^ 2 + n3 ^ 2); [|lra]. rewrite Rmult_0_r.
  set (ya := d1 * (w2 * a3 - w3 * a2) - d2 * (w1 * a3 - w3 * a1) + d3 * (w1 * a2 - w2 * a1)) in *.
  set (yb := d1 * (w2 * b3 - w3 * b2) - d2 * (w1 * b3 - w3 * b1) + d3 * (w1 * b2 - w2 * b1)) in *.
  transitivity ((d1 * (n2 * b3 - n3 * b2) + d2 * (n3 * b1 - n1 * b3) + d3 * (n1 * b2 - n2 * b1)) * ya - (d1 * (n2 * a3 - n3 * a2) + d2 * (n3 * a1 - n1 * a3) + d3 * (n1 * a2 - n2 * a1)) * yb).
  - unfold ya, yb, n1, n2, n3. ring.
  - rewrite A, B. ring.
Qed.
Lemma exists_w : forall d : vec3 R, (vx d <> 0 \/ vy d <> 0 \/ vz d <> 0) -> exists w, cross_nz d w.
Proof.
  intros [d1 d2 d3] H. cbn [vx vy vz] in H. unfold cross_nz. cbn [vx vy vz]. destruct (Req_dec d1 0) as [E1|E1].
  - exists (V3 1 0 0). cbn [vx vy vz]. destruct (Req_dec d2 0); [assert (d3 <> 0) by tauto|]; nra.
  - exists (V3 0 0 1). cbn [vx vy vz]. nra.
Qed.
Definition line_sign (p q : vec3 R) (t : triple) : Z := let '(a, b, c) := t in sgn3 (s_orient p q a b) (s_orient p q b c) (s_orient p q c a).
Definition orient_nz (p q : vec3 R) (t : triple) : Prop := let '(a, b, c) := t in s_orient p q a b <> 0 /\ s_orient p q b c <> 0 /\ s_orient p q c a <> 0.
Lemma soup_cons : forall (pts : list (vec3 R)) i j k ts l, s_soup pts ((i, j, k) :: ts) = Some l ->
  exists a b c r, s_nth pts (N.to_nat i) = Some a /\ s_nth pts (N.to_nat j) = Some b /\ s_nth pts (N.to_nat k) = Some c /\ s_soup pts ts = Some r /\ l = (a, b, c) :: r.
Proof.
  intros pts i j k ts l H. cbn [s_soup] in H. destruct (s_nth pts (N.to_nat i)) as [a|]; [|discriminate]. destruct (s_nth pts (N.to_nat j)) as [b|]; [|discriminate].
  destruct (s_nth pts (N.to_nat k)) as [c|]; [|discriminate]. destruct (s_soup pts ts) as [r|]; [|discriminate]. injection H as <-. eauto 10.
Qed.
(** an antisymmetric function on pairs of points sums to zero over a closed surface *)
Definition efun (pts : list (vec3 R)) (g : vec3 R -> vec3 R -> Z) (e : N * N) : Z :=
  match s_nth pts (N.to_nat (fst e)), s_nth pts (N.to_nat (snd e)) with Some a, Some b => g a b | _, _ => 0%Z end.
Lemma closed_points : forall (pts : list (vec3 R)) ts l g, s_soup pts ts = Some l -> s_closed_surface ts -> (forall a b, g b a = (- g a b)%Z) ->
  s_zsum (map (fun t : triple => let '(a, b, c) := t in g a b + g b c + g c a)%Z l) = 0%Z.
Proof.
  intros pts ts l g S C A. rewrite <- (closed_sum ts (efun pts g) C).
  - rewrite edges_sum. clear C. revert l S. induction ts as [|[[i j] k] ts IH]; intros l S; [injection S as <-; reflexivity|].
    apply soup_cons in S. destruct S as [a [b [c [r [E1 [E2 [E3 [E4 ->]]]]]]]]. cbn [map]. unfold s_zsum in *. cbn [fold_right]. rewrite (IH r E4). f_equal.
    unfold efun. cbn [fst snd]. rewrite E1, E2, E3. reflexivity.
  - intros [i j] _. unfold efun, swap. cbn [fst snd]. destruct (s_nth pts (N.to_nat i)), (s_nth pts (N.to_nat j)); auto.
Qed.
Lemma line_sum : forall p q (pts : list (vec3 R)) ts l, s_soup pts ts = Some l -> s_closed_surface ts -> (forall t, In t l -> orient_nz p q t) ->
  s_zsum (map (line_sign p q) l) = 0%Z.
Proof.
  intros p q pts ts l S C G. destruct l as [|t0 l0] eqn:EL; [reflexivity|]. rewrite <- EL in *.
  destruct (exists_w (s_diff q p)) as [w W].
  { destruct (Req_dec (vx (s_diff q p)) 0) as [E1|]; [|tauto]. destruct (Req_dec (vy (s_diff q p)) 0) as [E2|]; [|tauto]. destruct (Req_dec (vz (s_diff q p)) 0) as [E3|]; [|tauto].
    exfalso. destruct t0 as [[a b] c]. destruct (G (a, b, c)) as [X _]; [rewrite EL; left; auto|]. apply X. unfold s_orient, s_det. rewrite E1, E2, E3. ring. }
  rewrite <- (closed_points pts ts l (fun a b => chi (yy p q w a) (yy p q w b) (s_orient p q a b)) S C).
  - f_equal. apply map_ext_in. intros [[a b] c] I. destruct (G _ I) as [X1 [X2 X3]]. unfold line_sign. symmetry. apply winding2; auto.
    + apply yy_rel.
    + intros Y1 Y2. exfalso. apply X1. eapply yy_nd; eauto.
  - intros a b. rewrite orient_anti. apply chi_anti.
Qed.

(** ** points outside a convex set around the mesh *)
Lemma V3_eta : forall v : vec3 R, v = V3 (vx v) (vy v) (vz v). Proof. intros [a b c]. reflexivity. Qed.
Lemma convex_tri : forall K a b c x, s_convex K -> K a -> K b -> K c -> in_triangle a b c x -> K x.
Proof.
  intros K a b c x CV A B C [u [v [w [U [V [W [S ->]]]]]]]. destruct (Req_dec (v + w) 0) as [E|E].
  - assert (v = 0) by lra. assert (w = 0) by lra. assert (u = 1) by lra. subst. rewrite !Rmult_1_l, !Rmult_0_l, !Rplus_0_r. rewrite <- V3_eta. auto.
  - assert (P : 0 <= w / (v + w) <= 1).
    { split; [apply Rmult_le_pos; [auto|left; apply Rinv_0_lt_compat; lra]|]. apply Rmult_le_reg_r with (v + w); [lra|]. unfold Rdiv. rewrite Rmult_assoc, Rinv_l by auto. lra. }
    pose proof (CV a (s_between b c (w / (v + w))) (v + w) A (CV b c _ B C P)) as X.
    replace (V3 _ _ _) with (s_between a (s_between b c (w / (v + w))) (v + w)); [apply X; lra|].
    replace u with (1 - v - w) by lra. unfold s_between. cbn [vx vy vz]. f_equal; field; auto.
Qed.
Definition same_sign (a b c : R) : Prop := (0 < a /\ 0 < b /\ 0 < c) \/ (a < 0 /\ b < 0 /\ c < 0).
Lemma sgn3_cases : forall a b c, a <> 0 -> b <> 0 -> c <> 0 ->
  (0 < a /\ 0 < b /\ 0 < c /\ sgn3 a b c = 1%Z) \/ (a < 0 /\ b < 0 /\ c < 0 /\ sgn3 a b c = (-1)%Z) \/ (~ same_sign a b c /\ sgn3 a b c = 0%Z).
Proof.
  intros a b c A B C. unfold sgn3, same_sign. destruct (Rlt_dec 0 a), (Rlt_dec 0 b), (Rlt_dec 0 c), (Rlt_dec a 0), (Rlt_dec b 0), (Rlt_dec c 0); try (exfalso; lra);
    first [left; repeat split; lra | right; left; repeat split; lra | right; right; split; [lra|reflexivity]].
Qed.
Lemma pierce : forall p q a b c, same_sign (s_orient p q a b) (s_orient p q b c) (s_orient p q c a) -> exists tau, in_triangle a b c (s_between p q tau) /\
  (s_meets p q a b c <-> 0 <= tau <= 1).
Proof.
  intros p q a b c L. pose proof (orient_sum p q a b c) as SUM. destruct (cramer p q a b c) as [CX [CY CZ]].
  assert (UNI : forall t, in_triangle a b c (s_between p q t) -> - s_height a b c p = t * (s_height a b c q - s_height a b c p)).
  { intros t [u [v [w [U [V [W [S E]]]]]]]. destruct (bary p q a b c u v w t S E) as [_ [_ [_ H]]]. auto. }
  set (D := s_height a b c q - s_height a b c p) in *. set (h := s_height a b c p) in *.
  assert (ND : D <> 0) by (destruct L as [[? [? ?]]|[? [? ?]]]; lra).
  assert (P : 0 < s_orient p q a b / D /\ 0 < s_orient p q b c / D /\ 0 < s_orient p q c a / D).
  { destruct L as [[A [B C]]|[A [B C]]].
    - repeat split; apply Rdiv_lt_0_compat; lra.
    - assert (X : forall s, s / D = (- s) / (- D)) by (intros; field; auto). rewrite !X. repeat split; apply Rdiv_lt_0_compat; lra. }
  destruct P as [P1 [P2 P3]].
  assert (IN : in_triangle a b c (s_between p q (- h / D))).
  { exists (s_orient p q b c / D), (s_orient p q c a / D), (s_orient p q a b / D). repeat split; try lra.
    - replace (s_orient p q b c / D + s_orient p q c a / D + s_orient p q a b / D) with ((s_orient p q a b + s_orient p q b c + s_orient p q c a) / D) by (field; auto).
      rewrite SUM. field; auto.
    - unfold s_between. f_equal.
      + transitivity ((s_orient p q b c * vx a + s_orient p q c a * vx b + s_orient p q a b * vx c) / D); [rewrite CX|]; field; auto.
      + transitivity ((s_orient p q b c * vy a + s_orient p q c a * vy b + s_orient p q a b * vy c) / D); [rewrite CY|]; field; auto.
      + transitivity ((s_orient p q b c * vz a + s_orient p q c a * vz b + s_orient p q a b * vz c) / D); [rewrite CZ|]; field; auto. }
  exists (- h / D). split; auto. split.
  - intros [t [T I]]. apply UNI in I. replace (- h / D) with t; auto. rewrite I. field. auto.
  - intros T. exists (- h / D). auto.
Qed.
Lemma crossing_sign : forall p q t z, orient_nz p q t -> s_crossing p q t z ->
  z = line_sign p q t /\ (let '(a, b, c) := t in s_meets p q a b c \/ line_sign p q t = 0%Z) \/ z = 0%Z /\ (let '(a, b, c) := t in ~ s_meets p q a b c).
Proof.
  intros p q [[a b] c] z [N1 [N2 N3]] C. pose proof (orient_sum p q a b c) as SUM. unfold s_crossing in C. unfold line_sign.
  pose proof (meets_iff p q a b c N1 N2 N3) as M.
  destruct (sgn3_cases _ _ _ N1 N2 N3) as [[A [B [D E]]]|[[A [B [D E]]]|[A E]]]; rewrite E.
  - destruct C as [[C1 [C2 ->]]|[[C1 [C2 ->]]|[C1 ->]]]; [left; auto|lra|right; auto].
  - destruct C as [[C1 [C2 ->]]|[[C1 [C2 ->]]|[C1 ->]]]; [lra|left; auto|right; auto].
  - destruct C as [[C1 [C2 ->]]|[[C1 [C2 ->]]|[C1 ->]]]; [|left|right; auto].
    + exfalso. apply A. apply M in C1. unfold same_sign. tauto.
    + exfalso. apply A. apply M in C1. unfold same_sign. tauto.
Qed.
Lemma generic_nz : forall p q t, s_generic p q t -> orient_nz p q t.
Proof.
  intros p q [[a b] c] [A [B [C _]]]. pose proof e16_pos. unfold orient_nz. 
  repeat split; intros Z; rewrite Z, Rabs_R0 in *; lra.
Qed.
Lemma between_between : forall p q t s, s_between p (s_between p q t) s = s_between p q (s * t).
Proof. intros. unfold s_between. cbn [vx vy vz]. f_equal; ring. Qed.
Lemma between_1 : forall p q, s_between p q 1 = q.
Proof. intros. rewrite (V3_eta q) at 2. unfold s_between. f_equal; ring. Qed.
Lemma between_mid : forall p q s t, s < 0 -> 0 < t -> exists r, 0 <= r <= 1 /\ s_between (s_between p q s) (s_between p q t) r = p.
Proof.
  intros p q s t S T. exists (- s / (t - s)). split.
  - split; [apply Rmult_le_pos; [lra|left; apply Rinv_0_lt_compat; lra]|]. apply Rmult_le_reg_r with (t - s); [lra|]. unfold Rdiv. rewrite Rmult_assoc, Rinv_l by lra. lra.
  - rewrite (V3_eta p) at 3. unfold s_between. cbn [vx vy vz]. f_equal; field; lra.
Qed.
Lemma ball_convex : forall r2, s_convex (fun v => s_norm2 v <= r2).
Proof.
  intros r2 a b t A B T. apply (convex_norm a b b _ r2 A B B). exists (1 - t), t, 0. repeat split; try lra. unfold s_between. f_equal; ring.
Qed.
Lemma convex_zero : forall K p rad (pts : list (vec3 R)) ts l zs, s_soup pts ts = Some l -> s_closed_surface ts -> s_convex K ->
  (forall v, In v pts -> K v) -> ~ K p -> 0 <= rad -> s_norm2 p <= rad * rad -> (forall v, In v pts -> s_norm2 v <= rad * rad) ->
  (forall t, In t l -> orient_nz p (s_outside rad) t) -> Forall2 (s_crossing p (s_outside rad)) l zs -> s_zsum zs = 0%Z.
Proof.
  intros K p rad pts ts l zs S C CV KP NK RP NP NV G F. set (q := s_outside rad) in *.
  assert (LS := line_sum p q pts ts l S C G).
  assert (IN : forall a b c, In (a, b, c) l -> In a pts /\ In b pts /\ In c pts) by (intros a b c I; eapply soup_in; eauto).
  assert (PK : forall a b c tau, In (a, b, c) l -> in_triangle a b c (s_between p q tau) -> K (s_between p q tau) /\ tau <= 1).
  { intros a b c tau I T. destruct (IN a b c I) as [Ia [Ib Ic]]. split; [apply (convex_tri K a b c); auto|].
    destruct (Rle_lt_dec tau 1) as [|L]; auto. exfalso.
    assert (NX : s_norm2 (s_between p q tau) <= rad * rad) by (apply (convex_norm a b c); auto).
    pose proof (ball_convex (rad * rad) p (s_between p q tau) (/ tau) NP NX) as Q.
    rewrite between_between, Rinv_l, between_1 in Q by lra.
    assert (QN : s_norm2 q <= rad * rad). { apply Q. split; [left; apply Rinv_0_lt_compat; lra|]. apply Rmult_le_reg_r with tau; [lra|]. rewrite Rinv_l; lra. }
    unfold q, s_outside, s_norm2, s_dot in QN. cbn [vx vy vz] in QN.
    assert (rad = 0) by nra.
    (* all corners are the origin *)
    assert (Z : forall v, In v pts -> v = V3 0 0 0).
    { intros v I'. specialize (NV v I'). subst rad. destruct v as [x y z]. unfold s_norm2, s_dot in NV. cbn [vx vy vz] in NV. f_equal; nra. }
    destruct (G _ I) as [X _]. apply X. rewrite (Z a), (Z b) by auto. unq. ring. }
  assert (DEC : (exists a b c tau, In (a, b, c) l /\ in_triangle a b c (s_between p q tau) /\ tau < 0) \/
                (forall a b c tau, In (a, b, c) l -> in_triangle a b c (s_between p q tau) -> 0 <= tau)).
  { clear - l. destruct (Classical_Prop.classic (exists a b c tau, In (a, b, c) l /\ in_triangle a b c (s_between p q tau) /\ tau < 0)) as [H|H]; [auto|right].
    intros a b c tau I T. destruct (Rle_lt_dec 0 tau); auto. exfalso. apply H. exists a, b, c, tau. auto. }
  destruct DEC as [[a [b [c [tau [I [T N]]]]]]|POS].
  - assert (ALL : forall t z, In t l -> s_crossing p q t z -> z = 0%Z).
    { intros [[a' b'] c'] z I' X. destruct (crossing_sign p q (a', b', c') z (G _ I') X) as [[-> [M|M]]|[-> _]]; auto.
      destruct M as [t' [T' M]]. exfalso. destruct (PK a b c tau I T) as [K1 _]. destruct (PK a' b' c' t' I' M) as [K2 _].
      destruct (Req_dec t' 0) as [-> |NZ].
      - apply NK. replace p with (s_between p q 0); auto. rewrite (V3_eta p) at 2. unfold s_between. f_equal; ring.
      - destruct (between_mid p q tau t' N ltac:(lra)) as [r [R1 R2]]. apply NK. rewrite <- R2. apply CV; auto. }
    clear - F ALL. induction F as [|t z l zs X F IH]; [reflexivity|]. unfold s_zsum in *. cbn [fold_right]. rewrite IH, (ALL t z); [reflexivity|left; auto|auto|].
    intros; eapply ALL; eauto. right; auto.
  - rewrite <- LS. f_equal. clear LS S C. induction F as [|t z l zs X F IH]; [reflexivity|]. cbn [map]. f_equal.
    + destruct t as [[a b] c]. assert (I : In (a, b, c) ((a, b, c) :: l)) by (left; auto). destruct (crossing_sign p q (a, b, c) z (G _ I) X) as [[-> _]|[-> NM]]; auto.
      destruct (G _ I) as [N1 [N2 N3]]. unfold line_sign. destruct (sgn3_cases _ _ _ N1 N2 N3) as [[A [B [D E]]]|[[A [B [D E]]]|[A E]]]; [| |auto];
      (exfalso; destruct (pierce p q a b c) as [tau [T M]]; [unfold same_sign; tauto|]; apply NM, M; split; [eapply POS; eauto|apply (PK a b c tau I T)]).
    + apply IH; intros.
      * apply G; right; auto.
      * apply IN; right; auto.
      * eapply PK; eauto. right; eauto.
      * eapply POS; eauto. right; eauto.
Qed.
