(** Inside points of closed meshes *)
From Coq Require Import ZArith NArith List Bool Lia Reals Lra Psatz Permutation.
From Verif Require Import Num MathTypes Outcome Mesh Box Spec P_Tac P_Math P_Mesh P_MeshGeo ShapeQuery SpecQuery P_Query P_Query2 P_Query3.
Import ListNotations.
Local Open Scope R_scope.

(** ** segments between two points outside a convex set *)
Lemma seg_cases : forall p q a b c, nz1 p q (a, b, c) ->
  (s_meets p q a b c /\ segt p q (a, b, c) = line_sign p q (a, b, c) /\ line_sign p q (a, b, c) <> 0%Z) \/ (~ s_meets p q a b c /\ segt p q (a, b, c) = 0%Z).
Proof.
  intros p q a b c [[N1 [N2 N3]] [H1 H2]]. pose proof (meets_iff p q a b c N1 N2 N3) as M. unfold segt, seg, segb, line_sign.
  destruct (sgn3_cases _ _ _ N1 N2 N3) as [[A [B [D E]]]|[[A [B [D E]]]|[A E]]]; rewrite E.
  - destruct (pos_cases _ H1) as [[P1 ->]|[P1 ->]], (pos_cases _ H2) as [[P2 ->]|[P2 ->]]; cbn [eqb].
    + right. split; auto. intros X. apply M in X. nra.
    + left. split; [apply M; split; [tauto|nra]|split; [auto|discriminate]].
    + left. split; [apply M; split; [tauto|nra]|split; [auto|discriminate]].
    + right. split; auto. intros X. apply M in X. nra.
  - destruct (pos_cases _ H1) as [[P1 ->]|[P1 ->]], (pos_cases _ H2) as [[P2 ->]|[P2 ->]]; cbn [eqb].
    + right. split; auto. intros X. apply M in X. nra.
    + left. split; [apply M; split; [tauto|nra]|split; [auto|discriminate]].
    + left. split; [apply M; split; [tauto|nra]|split; [auto|discriminate]].
    + right. split; auto. intros X. apply M in X. nra.
  - right. split; [intros X; apply M in X; apply A; unfold same_sign; tauto|]. destruct (eqb _ _); auto.
Qed.
Lemma between_swap : forall p q t, s_between p q t = s_between q p (1 - t).
Proof. intros. unfold s_between. f_equal; ring. Qed.
Lemma between_0 : forall p q, s_between p q 0 = p.
Proof. intros. rewrite (V3_eta p) at 2. unfold s_between. f_equal; ring. Qed.
Lemma convex_zero2 : forall K p q (pts : list (vec3 R)) ts l, s_soup pts ts = Some l -> s_closed_surface ts -> s_convex K ->
  (forall v, In v pts -> K v) -> ~ K p -> ~ K q -> (forall t, In t l -> nz1 p q t) -> s_zsum (map (segt p q) l) = 0%Z.
Proof.
  intros K p q pts ts l S C CV KP NP NQ G.
  assert (LS : s_zsum (map (line_sign p q) l) = 0%Z). { apply (line_sum p q pts ts l S C). intros [[a b] c] I. destruct (G _ I) as [X _]. exact X. }
  assert (PK : forall a b c tau, In (a, b, c) l -> in_triangle a b c (s_between p q tau) -> K (s_between p q tau)).
  { intros a b c tau I T. destruct (soup_in _ _ _ _ _ _ S I) as [Ia [Ib Ic]]. apply (convex_tri K a b c); auto. }
  destruct (Classical_Prop.classic (exists a b c tau, In (a, b, c) l /\ in_triangle a b c (s_between p q tau) /\ (tau < 0 \/ 1 < tau))) as [[a [b [c [tau [I [T N]]]]]]|H].
  - assert (ALL : forall t, In t l -> segt p q t = 0%Z).
    { intros [[a' b'] c'] I'. destruct (seg_cases p q a' b' c' (G _ I')) as [[M _]|[_ E]]; auto. exfalso. destruct M as [t' [T' M]].
      assert (K1 := PK _ _ _ _ I T). assert (K2 := PK _ _ _ _ I' M). destruct N as [N|N].
      - destruct (Req_dec t' 0) as [E|NZ]; [subst t'; rewrite between_0 in K2; auto|].
        destruct (between_mid p q tau t' N ltac:(lra)) as [r [R1 R2]]. apply NP. rewrite <- R2. apply CV; auto.
      - rewrite between_swap in K1, K2. destruct (Req_dec t' 1) as [E|NZ]; [subst t'; replace (1 - 1) with 0 in K2 by ring; rewrite between_0 in K2; auto|].
        destruct (between_mid q p (1 - tau) (1 - t') ltac:(lra) ltac:(lra)) as [r [R1 R2]]. apply NQ. rewrite <- R2. apply CV; auto. }
    clear - ALL. induction l as [|t l IH]; [reflexivity|]. unfold s_zsum in *. cbn [map fold_right]. rewrite IH, (ALL t); [reflexivity|left; auto|intros; apply ALL; right; auto].
  - rewrite <- LS. f_equal. apply map_ext_in. intros [[a b] c] I. destruct (seg_cases p q a b c (G _ I)) as [[_ [E _]]|[NM E]]; auto. rewrite E.
    destruct (G _ I) as [[N1 [N2 N3]] _]. unfold line_sign. destruct (sgn3_cases _ _ _ N1 N2 N3) as [[A [B [D X]]]|[[A [B [D X]]]|[A X]]]; [| |auto];
    (exfalso; destruct (pierce p q a b c) as [tau [T M]]; [unfold same_sign; tauto|]; apply NM, M; apply Classical_Prop.NNPP; intros O; apply H; exists a, b, c, tau; split; auto; split; auto; lra).
Qed.

(** ** points that avoid finitely many planes *)
Definition affine (f : vec3 R -> R) : Prop := exists g k, forall x, f x = s_dot g x + k.
Definition near (r : R) (x y : vec3 R) : Prop := Rabs (vx x - vx y) < r /\ Rabs (vy x - vy y) < r /\ Rabs (vz x - vz y) < r.
Lemma near_refl : forall r x, 0 < r -> near r x x.
Proof. intros r x P. unfold near. rewrite !Rminus_diag_eq, Rabs_R0 by reflexivity. auto. Qed.
Lemma near_trans : forall r s x y z, near r x y -> near s y z -> near (r + s) x z.
Proof.
  intros r s x y z [A [B C]] [D [E F]]. unfold near.
  assert (P : forall a b c, Rabs (a - b) < r -> Rabs (b - c) < s -> Rabs (a - c) < r + s).
  { intros a b c H1 H2. replace (a - c) with ((a - b) + (b - c)) by ring. eapply Rle_lt_trans; [apply Rabs_triang|lra]. }
  split; [|split]; eapply P; eassumption.
Qed.
Lemma near_weaken : forall r s x y, r <= s -> near r x y -> near s x y.
Proof. intros r s x y L [A [B C]]. unfold near. lra. Qed.
(** a sign is kept in a neighbourhood *)
Lemma affine_ball : forall f x, affine f -> f x <> 0 -> exists r, 0 < r /\ forall y, near r y x -> 0 < f x * f y.
Proof.
  intros f x [[g1 g2 g3] [k F]] N. set (G := 1 + Rabs g1 + Rabs g2 + Rabs g3).
  assert (GP : 1 <= G) by (unfold G; pose proof (Rabs_pos g1); pose proof (Rabs_pos g2); pose proof (Rabs_pos g3); lra).
  assert (AP : 0 < Rabs (f x)) by (apply Rabs_pos_lt; auto). exists (Rabs (f x) / G). assert (RP : 0 < Rabs (f x) / G) by (apply Rdiv_lt_0_compat; lra). split; auto.
  intros y [A [B C]]. set (r := Rabs (f x) / G) in *. assert (RG : r * G = Rabs (f x)) by (unfold r; field; lra).
  assert (D : Rabs (f y - f x) < Rabs (f x)).
  { replace (f y - f x) with (g1 * (vx y - vx x) + g2 * (vy y - vy x) + g3 * (vz y - vz x)) by (rewrite !F; unfold s_dot; cbn [vx vy vz]; ring).
    eapply Rle_lt_trans; [apply Rabs_triang|]. eapply Rle_lt_trans; [apply Rplus_le_compat_r, Rabs_triang|]. rewrite !Rabs_mult. rewrite <- RG. unfold G.
    pose proof (Rabs_pos g1). pose proof (Rabs_pos g2). pose proof (Rabs_pos g3).
    assert (Rabs g1 * Rabs (vx y - vx x) <= Rabs g1 * r) by (apply Rmult_le_compat_l; lra).
    assert (Rabs g2 * Rabs (vy y - vy x) <= Rabs g2 * r) by (apply Rmult_le_compat_l; lra).
    assert (Rabs g3 * Rabs (vz y - vz x) <= Rabs g3 * r) by (apply Rmult_le_compat_l; lra). nra. }
  destruct (Rtotal_order (f x) 0) as [L|[L|L]]; [|contradiction|].
  - rewrite (Rabs_left (f x)) in D by auto. apply Rabs_def2 in D. nra.
  - rewrite (Rabs_right (f x)) in D by lra. apply Rabs_def2 in D. nra.
Qed.
Lemma affine_between : forall f x y t, affine f -> f (s_between x y t) = f x + t * (f y - f x).
Proof. intros f x y t [g [k F]]. rewrite !F. unfold s_dot, s_between. cbn [vx vy vz]. ring. Qed.
Lemma avoid : forall fs x r, 0 < r -> (forall f, In f fs -> affine f /\ exists y, f y <> 0) ->
  exists x' r', 0 < r' /\ (forall y, near r' y x' -> near r y x) /\ (forall f y, In f fs -> near r' y x' -> f y <> 0).
Proof.
  induction fs as [|f fs IH]; intros x r P H.
  - exists x, r. split; [exact P|]. split; [intros y HY; exact HY|]. intros f y [].
  - destruct (IH x r P) as [x1 [r1 [P1 [N1 A1]]]]; [intros; apply H; right; auto|].
    destruct (H f (or_introl eq_refl)) as [AF [y0 NY]].
    assert (X : exists x2, near (r1 / 2) x2 x1 /\ f x2 <> 0).
    { destruct (Req_dec (f x1) 0) as [Z|Z]; [|exists x1; split; auto; apply near_refl; lra].
      set (D := 1 + Rabs (vx y0 - vx x1) + Rabs (vy y0 - vy x1) + Rabs (vz y0 - vz x1)).
      pose proof (Rabs_pos (vx y0 - vx x1)) as Q1. pose proof (Rabs_pos (vy y0 - vy x1)) as Q2. pose proof (Rabs_pos (vz y0 - vz x1)) as Q3.
      assert (DP : 1 <= D) by (unfold D; lra). set (t := r1 / 2 / D). assert (TP : 0 < t) by (unfold t; apply Rdiv_lt_0_compat; lra). assert (TD : t * D = r1 / 2) by (unfold t; field; lra).
      exists (s_between x1 y0 t). split.
      - unfold near, s_between. cbn [vx vy vz].
        assert (B : forall a b, Rabs (b - a) < D -> Rabs (a + t * (b - a) - a) < r1 / 2).
        { intros a b L. replace (a + t * (b - a) - a) with (t * (b - a)) by ring. rewrite Rabs_mult, (Rabs_right t) by lra. rewrite <- TD. apply Rmult_lt_compat_l; auto. }
        split; [|split]; apply B; unfold D; lra.
      - rewrite affine_between by auto. rewrite Z. intros E. apply NY. assert (t * f y0 = 0) by lra. apply Rmult_integral in H0. lra. }
    destruct X as [x2 [NX2 F2]]. destruct (affine_ball f x2 AF F2) as [r2 [P2 B2]].
    exists x2, (Rmin r2 (r1 / 2)). assert (P3 : 0 < Rmin r2 (r1 / 2)) by (apply Rmin_pos; lra).
    assert (IN1 : forall y, near (Rmin r2 (r1 / 2)) y x2 -> near r1 y x1).
    { intros y NY'. replace r1 with (r1 / 2 + r1 / 2) by field. apply (near_trans _ _ _ x2); auto. eapply near_weaken; [apply Rmin_r|exact NY']. }
    split; auto. split; [auto|]. intros f' y [->|I] NY'.
    + intros E. specialize (B2 y (near_weaken _ _ _ _ (Rmin_l _ _) NY')). rewrite E in B2. lra.
    + apply (A1 f'); auto.
Qed.
(** finitely many strict signs are kept in a neighbourhood *)
Lemma keep : forall fs x, (forall f, In f fs -> affine f /\ 0 < f x) -> exists r, 0 < r /\ forall f y, In f fs -> near r y x -> 0 < f y.
Proof.
  induction fs as [|f fs IH]; intros x H.
  - exists 1. split; [lra|]. intros f y [].
  - destruct (IH x) as [r1 [P1 K1]]; [intros; apply H; right; auto|]. destruct (H f (or_introl eq_refl)) as [AF FP].
    destruct (affine_ball f x AF ltac:(lra)) as [r2 [P2 K2]]. exists (Rmin r1 r2). split; [apply Rmin_pos; auto|]. intros f' y [->|I] N.
    + specialize (K2 y (near_weaken _ _ _ _ (Rmin_r _ _) N)). nra.
    + apply K1; auto. eapply near_weaken; [apply Rmin_l|exact N].
Qed.

(** ** the functionals *)
Lemma aff_det1 : forall p u v, affine (fun e => s_det (s_diff e p) u v).
Proof.
  intros p u v. exists (V3 (vy u * vz v - vz u * vy v) (vz u * vx v - vx u * vz v) (vx u * vy v - vy u * vx v)),
    (- (vx p * (vy u * vz v - vz u * vy v) + vy p * (vz u * vx v - vx u * vz v) + vz p * (vx u * vy v - vy u * vx v))).
  intros x. unfold s_det, s_diff, s_dot. cbn [vx vy vz]. ring.
Qed.
Lemma aff_ext : forall f g, (forall x, f x = g x) -> affine g -> affine f.
Proof. intros f g E [a [k F]]. exists a, k. intros x. rewrite E. apply F. Qed.
Lemma aff_orient_l : forall p a b, affine (fun e => s_orient p e a b).
Proof. intros. apply aff_det1. Qed.
Lemma aff_orient_r : forall q a b, affine (fun e => s_orient e q a b).
Proof. intros q a b. apply (aff_ext _ (fun e => s_det (s_diff e q) (s_diff b q) (s_diff a q))); [intros x; unq; ring|apply aff_det1]. Qed.
Lemma aff_height : forall a b c, affine (fun e => s_height a b c e).
Proof. intros a b c. apply (aff_ext _ (fun e => s_det (s_diff e a) (s_diff b a) (s_diff c a))); [intros x; unq; ring|apply aff_det1]. Qed.
Lemma aff_height2 : forall p q a, affine (fun e => s_height p e q a).
Proof. intros p q a. apply (aff_ext _ (fun e => s_det (s_diff e p) (s_diff q p) (s_diff a p))); [intros x; unq; ring|apply aff_det1]. Qed.
(** if a point p sees the segment ab under some third point, the functional is not zero everywhere *)
Lemma nz_orient_l : forall p a b c, s_height a b c p <> 0 -> s_orient p c a b <> 0.
Proof. intros p a b c H E. apply H. replace (s_height a b c p) with (- s_orient p c a b); [rewrite E; ring|]. unq. ring. Qed.
Lemma nz_orient_r : forall q a b c, s_height a b c q <> 0 -> s_orient c q a b <> 0.
Proof. intros q a b c H E. apply H. replace (s_height a b c q) with (s_orient c q a b); [exact E|]. unq. ring. Qed.
Lemma nz_height2 : forall p q a b, s_orient p q a b <> 0 -> s_height p b q a <> 0.
Proof. intros p q a b H E. apply H. replace (s_orient p q a b) with (s_height p b q a); [exact E|]. unq. ring. Qed.
Lemma nz_height2' : forall p q a b, s_orient p q b a <> 0 -> s_height p b q a <> 0.
Proof. intros p q a b H. apply nz_height2. rewrite orient_anti. intros E. apply H. lra. Qed.
Definition conds (p q : vec3 R) (t : triple) : list (vec3 R -> R) :=
  let '(a, b, c) := t in
  [ (fun e => s_orient p e a b); (fun e => s_orient p e b c); (fun e => s_orient p e c a);
    (fun e => s_orient e q a b); (fun e => s_orient e q b c); (fun e => s_orient e q c a);
    (fun e => s_height a b c e); (fun e => s_height p e q a); (fun e => s_height p e q b); (fun e => s_height p e q c) ].
Lemma conds_ok : forall p q a b c, nz1 p q (a, b, c) -> forall f, In f (conds p q (a, b, c)) -> affine f /\ exists y, f y <> 0.
Proof.
  intros p q a b c [[N1 [N2 N3]] [H1 H2]] f I.
  assert (H1b : s_height b c a p <> 0) by (rewrite <- height_rot; auto). assert (H1c : s_height c a b p <> 0) by (rewrite <- height_rot; auto).
  assert (H2b : s_height b c a q <> 0) by (rewrite <- height_rot; auto). assert (H2c : s_height c a b q <> 0) by (rewrite <- height_rot; auto).
  cbn [conds In] in I. destruct I as [<-|[<-|[<-|[<-|[<-|[<-|[<-|[<-|[<-|[<-|[]]]]]]]]]]].
  - split; [apply aff_orient_l|exists c; apply nz_orient_l; auto].
  - split; [apply aff_orient_l|exists a; apply nz_orient_l; auto].
  - split; [apply aff_orient_l|exists b; apply nz_orient_l; auto].
  - split; [apply aff_orient_r|exists c; apply nz_orient_r; auto].
  - split; [apply aff_orient_r|exists a; apply nz_orient_r; auto].
  - split; [apply aff_orient_r|exists b; apply nz_orient_r; auto].
  - split; [apply aff_height|exists p; auto].
  - split; [apply aff_height2|exists b; apply nz_height2; auto].
  - split; [apply aff_height2|exists c; apply nz_height2; auto].
  - split; [apply aff_height2|exists a; apply nz_height2; auto].
Qed.
Lemma conds_general : forall p q e t, nz1 p q t -> (forall f, In f (conds p q t) -> f e <> 0) -> s_general p e q t.
Proof.
  intros p q e [[a b] c] [[N1 [N2 N3]] [H1 H2]] H. cbn [conds In] in H.
  assert (G : forall f, In f (conds p q (a, b, c)) -> f e <> 0) by exact H.
  pose proof (G (fun e => s_orient p e a b) ltac:(cbn; tauto)) as C1. pose proof (G (fun e => s_orient p e b c) ltac:(cbn; tauto)) as C2. pose proof (G (fun e => s_orient p e c a) ltac:(cbn; tauto)) as C3.
  pose proof (G (fun e => s_orient e q a b) ltac:(cbn; tauto)) as C4. pose proof (G (fun e => s_orient e q b c) ltac:(cbn; tauto)) as C5. pose proof (G (fun e => s_orient e q c a) ltac:(cbn; tauto)) as C6.
  pose proof (G (fun e => s_height a b c e) ltac:(cbn; tauto)) as C7. pose proof (G (fun e => s_height p e q a) ltac:(cbn; tauto)) as C8. pose proof (G (fun e => s_height p e q b) ltac:(cbn; tauto)) as C9. pose proof (G (fun e => s_height p e q c) ltac:(cbn; tauto)) as C10.
  cbv beta in *. unfold s_general. rewrite !(orient_rev p q).
  assert (OP : forall x, x <> 0 -> - x <> 0) by (intros x X E; apply X; lra). auto 20.
Qed.

(** ** inside points of convex meshes *)
Lemma height_tri : forall a b c u v w x y z, u + v + w = 1 ->
  s_height a b c (V3 (u * vx x + v * vx y + w * vx z) (u * vy x + v * vy y + w * vy z) (u * vz x + v * vz y + w * vz z)) =
  u * s_height a b c x + v * s_height a b c y + w * s_height a b c z.
Proof. intros a b c u v w x y z E. assert (w = 1 - u - v) by lra. subst w. unq. ring. Qed.
Lemma seg_inside : forall p q a b c, nz1 p q (a, b, c) -> s_height a b c p < 0 -> (0 <= segt p q (a, b, c) <= 1)%Z /\ (segt p q (a, b, c) <> 0%Z -> s_meets p q a b c).
Proof.
  intros p q a b c N H. destruct (seg_cases p q a b c N) as [[M [E NZ]]|[M E]]; [|rewrite E; split; [lia|congruence]]. split; auto.
  revert E. unfold segt, seg. destruct N as [[N1 [N2 N3]] [H1 H2]]. destruct (pos_cases _ H1) as [[P1 ->]|[P1 ->]]; [lra|]. pose proof (orient_sum p q a b c) as SUM.
  destruct (pos_cases _ H2) as [[P2 ->]|[P2 ->]]; cbn [segb eqb]; [|lia]. intros _.
  destruct (sgn3_cases _ _ _ N1 N2 N3) as [[A [B [D X]]]|[[A [B [D X]]]|[A X]]]; rewrite X; [lia|exfalso; lra|lia].
Qed.
Definition corners (t : triple) : list (vec3 R) := let '(a, b, c) := t in [a; b; c].
Definition hgt (t : triple) (x : vec3 R) : R := let '(a, b, c) := t in s_height a b c x.
Definition meets (p q : vec3 R) (t : triple) : Prop := let '(a, b, c) := t in s_meets p q a b c.
Lemma height_between : forall t p q s, hgt t (s_between p q s) = hgt t p + s * (hgt t q - hgt t p).
Proof. intros [[a b] c] p q s. unfold hgt. unq. ring. Qed.
Lemma meets_inner : forall p q t, nz1 p q t -> hgt t p < 0 -> meets p q t -> exists tau, s_inner t (s_between p q tau) /\ hgt t (s_between p q tau) = 0 /\ 0 <= tau.
Proof.
  intros p q [[a b] c] [[N1 [N2 N3]] [H1 H2]] HP [tau [T [u [v [w [U [V [W [S E]]]]]]]]]. exists tau. destruct (bary p q a b c u v w tau S E) as [B1 [B2 [B3 B4]]].
  assert (HZ : hgt (a, b, c) (s_between p q tau) = 0). { rewrite height_between. unfold hgt. lra. }
  split; [|split; [exact HZ|lra]]. exists u, v, w.
  assert (P : forall x o k, 0 <= x -> o <> 0 -> o = x * k -> 0 < x).
  { intros x o k X O K. destruct X as [X|X]; auto. subst x. exfalso. apply O. lra. }
  split; [exact (P _ _ _ U N2 B1)|]. split; [exact (P _ _ _ V N3 B2)|]. split; [exact (P _ _ _ W N1 B3)|]. auto.
Qed.
Lemma inner_hgt : forall t t' x, s_inner t' x -> (forall v, In v (corners t') -> hgt t v <= 0) -> hgt t x <= 0.
Proof.
  intros [[a b] c] [[a' b'] c'] x [u [v [w [U [V [W [S ->]]]]]]] H. unfold hgt in *. rewrite height_tri by auto.
  assert (H1 := H a' (or_introl eq_refl)). assert (H2 := H b' (or_intror (or_introl eq_refl))). assert (H3 := H c' (or_intror (or_intror (or_introl eq_refl)))). nra.
Qed.
Lemma two_met : forall p q t t', nz1 p q t -> nz1 p q t' -> hgt t p < 0 -> hgt t' p < 0 -> meets p q t -> meets p q t' ->
  (forall v, In v (corners t') -> hgt t v <= 0) -> (forall v, In v (corners t) -> hgt t' v <= 0) -> exists x, s_inner t x /\ s_inner t' x.
Proof.
  intros p q t t' N N' H H' M M' C C'. destruct (meets_inner p q t N H M) as [s [I [Z P]]]. destruct (meets_inner p q t' N' H' M') as [s' [I' [Z' P']]].
  assert (A := inner_hgt t t' _ I' C). assert (A' := inner_hgt t' t _ I C'). rewrite height_between in A, A', Z, Z'.
  assert (D : 0 < hgt t q - hgt t p) by nra. assert (D' : 0 < hgt t' q - hgt t' p) by nra.
  assert (s = s') by nra. subst s'. eauto.
Qed.
Lemma segt_meets : forall p q t, nz1 p q t -> hgt t p < 0 -> (0 <= segt p q t <= 1)%Z /\ (segt p q t <> 0%Z -> meets p q t).
Proof. intros p q [[a b] c] N H. apply seg_inside; auto. Qed.
Lemma inside_le1 : forall p q l, (forall t, In t l -> nz1 p q t /\ hgt t p < 0) -> (forall t t' v, In t l -> In t' l -> In v (corners t') -> hgt t v <= 0) ->
  s_flat_disjoint l -> (0 <= s_zsum (map (segt p q) l) <= 1)%Z.
Proof.
  intros p q l N CV D. induction D as [|t l F D IH]; [cbn; lia|].
  assert (NT := N t (or_introl eq_refl)). destruct NT as [NT HT]. destruct (segt_meets p q t NT HT) as [B M].
  assert (IH' : (0 <= s_zsum (map (segt p q) l) <= 1)%Z) by (apply IH; intros; [apply N; right; auto|eapply CV; try right; eauto]). clear IH.
  change (s_zsum (map (segt p q) (t :: l))) with (segt p q t + s_zsum (map (segt p q) l))%Z.
  destruct (Z.eq_dec (segt p q t) 0) as [E|E]; [lia|].
  assert (Z : s_zsum (map (segt p q) l) = 0%Z); [|lia].
  assert (ALL : forall t', In t' l -> segt p q t' = 0%Z).
  { intros t' I. destruct (Z.eq_dec (segt p q t') 0) as [E'|E']; auto. exfalso. destruct (N t' (or_intror I)) as [NT' HT'].
    destruct (segt_meets p q t' NT' HT') as [_ M']. destruct (two_met p q t t') as [x X]; auto.
    - intros v V. apply (CV t t' v); auto; [left|right]; auto.
    - intros v V. apply (CV t' t v); auto; [right|left]; auto.
    - rewrite Forall_forall in F. exact (F t' I x X). }
  clear - ALL. induction l as [|t' l IH]; [reflexivity|]. change (segt p q t' + s_zsum (map (segt p q) l) = 0)%Z.
  rewrite (ALL t'), IH; [reflexivity|intros; apply ALL; right; auto|left; auto].
Qed.
Lemma zsum_ge : forall (f : triple -> Z) l t, (forall u, In u l -> (0 <= f u)%Z) -> In t l -> (f t <= s_zsum (map f l))%Z.
Proof.
  intros f l t H I. assert (P : forall l, (forall u, In u l -> (0 <= f u)%Z) -> (0 <= s_zsum (map f l))%Z).
  { clear. induction l as [|u l IH]; intros H; [cbn; lia|]. change (0 <= f u + s_zsum (map f l))%Z. assert (0 <= f u)%Z by (apply H; left; auto). assert (0 <= s_zsum (map f l))%Z by (apply IH; intros; apply H; right; auto). lia. }
  induction l as [|u l IH]; [destruct I|]. change (f t <= f u + s_zsum (map f l))%Z. destruct I as [->|I].
  - assert (0 <= s_zsum (map f l))%Z by (apply P; intros; apply H; right; auto). lia.
  - assert (0 <= f u)%Z by (apply H; left; auto). assert (f t <= s_zsum (map f l))%Z by (apply IH; auto; intros; apply H; right; auto). lia.
Qed.
Lemma inside_ge1 : forall B p q (pts : list (vec3 R)) ts l, s_soup pts ts = Some l -> s_closed_surface ts -> s_convex B -> (forall v, In v pts -> B v) -> ~ B q ->
  s_convex_mesh pts l -> s_strictly_inside l p -> l <> [] -> (forall t, In t l -> nz1 p q t) -> (1 <= s_zsum (map (segt p q) l))%Z.
Proof.
  intros B p q pts ts l S C CB KB NB CV IN NE G. destruct l as [|[[a b] c] l0] eqn:EL; [congruence|]. rewrite <- EL in *.
  assert (I0 : In (a, b, c) l) by (rewrite EL; left; auto). clear EL l0 NE. assert (HP := IN a b c I0).
  set (g := V3 ((vx a + vx b + vx c) / 3) ((vy a + vy b + vy c) / 3) ((vz a + vz b + vz c) / 3)). set (e0 := s_between p g 2).
  destruct (keep [(fun e => s_orient p e a b); (fun e => s_orient p e b c); (fun e => s_orient p e c a); (fun e => s_height a b c e)] e0) as [r [RP K]].
  { assert (O1 : s_orient p e0 a b = - (2 / 3) * s_height a b c p) by (unfold e0, g; unq; field).
    assert (O2 : s_orient p e0 b c = - (2 / 3) * s_height a b c p) by (unfold e0, g; unq; field).
    assert (O3 : s_orient p e0 c a = - (2 / 3) * s_height a b c p) by (unfold e0, g; unq; field).
    assert (O4 : s_height a b c e0 = - s_height a b c p) by (unfold e0, g; unq; field).
    intros f [<-|[<-|[<-|[<-|[]]]]]; (split; [first [apply aff_orient_l|apply aff_height]|]); rewrite ?O1, ?O2, ?O3, ?O4; lra. }
  destruct (avoid (flat_map (conds p q) l) e0 r RP) as [e [r' [RP' [N1 AV]]]].
  { intros f I. apply in_flat_map in I. destruct I as [[[x y] z] [I J]]. apply (conds_ok p q x y z); auto. }
  assert (NE := N1 e (near_refl r' e RP')).
  assert (GEN : forall t, In t l -> s_general p e q t).
  { intros t I. apply conds_general; auto. intros f J. apply AV; [apply in_flat_map; eauto|apply near_refl; auto]. }
  assert (K1 : 0 < s_orient p e a b) by (apply (K (fun e => s_orient p e a b)); cbn; auto).
  assert (K2 : 0 < s_orient p e b c) by (apply (K (fun e => s_orient p e b c)); cbn; auto).
  assert (K3 : 0 < s_orient p e c a) by (apply (K (fun e => s_orient p e c a)); cbn; auto).
  assert (K4 : 0 < s_height a b c e) by (apply (K (fun e => s_height a b c e)); cbn; auto 6).
  assert (LINK := link_sum p e q pts ts l S C GEN).
  assert (W0 : s_zsum (map (segt e q) l) = 0%Z).
  { apply (convex_zero2 (fun x => B x /\ s_height a b c x <= 0) e q pts ts l S C).
    - intros x y t [X1 X2] [Y1 Y2] T. split; [apply CB; auto|]. pose proof (height_between (a, b, c) x y t) as HB. unfold hgt in HB. rewrite HB. nra.
    - intros v I. split; [auto|apply CV; auto].
    - intros [_ X]. lra.
    - intros [X _]. auto.
    - intros t I. apply (general_nz1 p e q t). auto. }
  assert (ANTI : s_zsum (map (segt q p) l) = (- s_zsum (map (segt p q) l))%Z).
  { clear. induction l as [|[[x y] z] l IH]; [reflexivity|]. change (seg q p x y z + s_zsum (map (segt q p) l) = - (seg p q x y z + s_zsum (map (segt p q) l)))%Z. rewrite IH, seg_anti. lia. }
  assert (PE : (segt p e (a, b, c) <= s_zsum (map (segt p e) l))%Z).
  { apply zsum_ge; auto. intros [[x y] z] I. apply seg_inside; [apply (general_nz1 p e q); auto|apply IN; auto]. }
  assert (E1 : segt p e (a, b, c) = 1%Z).
  { unfold segt, seg, pos. destruct (Rlt_dec 0 (s_height a b c p)); [lra|]. destruct (Rlt_dec 0 (s_height a b c e)); [|lra]. cbn [segb eqb]. unfold sgn3.
    destruct Rlt_dec; [|lra]. destruct Rlt_dec; [|lra]. destruct Rlt_dec; [|lra]. reflexivity. }
  lia.
Qed.
