(** Height maps: quad tree and rays *)
From Coq Require Import ZArith NArith List Bool Lia Reals Lra.
From Verif Require Import Num MathTypes Outcome Mesh Box Spec P_Tac P_Math P_Mesh P_Box HeightMap SpecHeight.
Import ListNotations.
Local Open Scope R_scope.

Lemma nidx_R : forall i, (nidx i : R) = INR i.
Proof. intros. unfold nidx. cbn [nofZ NumR]. symmetry. apply INR_IZR_INZ. Qed.

(** *** maximum height *)
Lemma fold_max_row : forall (c : nat -> R) l m,
  let r := fold_left (fun m y => nmax m (c y)) l m in
  m <= r /\ (forall y, In y l -> c y <= r) /\ (r = m \/ exists y, In y l /\ c y = r).
Proof.
  intros c. induction l as [|a l IH]; intros m; cbn [fold_left].
  - split; [lra|]. split; [intros y []|auto].
  - rewrite nmax_R. destruct (IH (Rmax m (c a))) as [A [B C]]. cbv zeta.
    set (r := fold_left _ l _) in *. pose proof (Rmax_l m (c a)). pose proof (Rmax_r m (c a)). repeat split.
    + lra.
    + intros y [<-|Y]; [lra|auto].
    + destruct C as [C|[y [Y C]]]; [|right; exists y; cbn; auto].
      destruct (Rle_dec (c a) m).
      * left. rewrite C. apply Rmax_left. auto.
      * right. exists a. split; [left; auto|]. rewrite C. symmetry. apply Rmax_right. lra.
Qed.
Lemma max_height_R : forall (g : list (list R)) x0 y0 x1 y1, let M := max_height g x0 y0 x1 y1 in
  0 <= M /\ (forall x y, s_covers x0 y0 x1 y1 x y -> cell_at g x y <= M) /\
  (M = 0 \/ exists x y, s_covers x0 y0 x1 y1 x y /\ cell_at g x y = M).
Proof.
  intros g x0 y0 x1 y1. unfold max_height.
  assert (G : forall l m, let M := fold_left (fun m x => fold_left (fun m y => nmax m (cell_at g x y)) (seq y0 (y1 - y0)) m) l m in
    m <= M /\ (forall x y, In x l -> (y0 <= y < y1)%nat -> cell_at g x y <= M) /\
    (M = m \/ exists x y, In x l /\ (y0 <= y < y1)%nat /\ cell_at g x y = M)).
  { induction l as [|a l IH]; intros m; cbn [fold_left].
    - split; [lra|]. split; [intros x y []|auto].
    - destruct (fold_max_row (fun y => cell_at g a y) (seq y0 (y1 - y0)) m) as [A [B C]]. cbv zeta.
      set (m' := fold_left _ (seq y0 (y1 - y0)) m) in *. destruct (IH m') as [A' [B' C']].
      set (M := fold_left _ l m') in *. repeat split.
      + lra.
      + intros x y [<-|X] Y; [|auto]. specialize (B y). rewrite in_seq in B. specialize (B ltac:(lia)). lra.
      + destruct C' as [C'|[x [y [X [Y C']]]]]; [|right; exists x, y; cbn; auto].
        destruct C as [C|[y [Y C]]]; [left; lra|]. right. exists a, y. rewrite in_seq in Y. repeat split; [left; auto|lia|lia|lra]. }
  specialize (G (seq x0 (x1 - x0)) n0). cbv zeta in *. destruct G as [A [B C]]. unR. repeat split; auto.
  - intros x y [X Y]. apply B; auto. rewrite in_seq. lia.
  - destruct C as [C|[x [y [X [Y C]]]]]; auto. right. exists x, y. rewrite in_seq in X. repeat split; auto; lia.
Qed.

(** *** the two loops over the children *)
Section Kids.
  Context {T : Type} {NT : Num T}.
  Variable H : nat -> Prop.
  Variable P : T -> Prop.
  Definition kid_ok (i : nat) (kf : hnode T * (T -> bool * T)) : Prop :=
    (fst kf = HNull -> ~ H i) /\ (forall d, fst (snd kf d) = true <-> H i) /\ (forall d, fst (snd kf d) = true -> P (snd (snd kf d))).
  Definition kids_ok (i : nat) kids := forall j kf, nth_error kids j = Some kf -> kid_ok (i + j) kf.
  Lemma kids_ok_cons : forall i k kids, kids_ok i (k :: kids) -> kid_ok i k /\ kids_ok (S i) kids.
  Proof.
    intros i k kids K. split; [specialize (K 0%nat k eq_refl); rewrite Nat.add_0_r in K; auto|].
    intros j kf J. specialize (K (S j) kf J). rewrite <- plus_n_Sm in K. auto.
  Qed.
  Lemma kids_origin_spec : forall kids p i io d, kids_ok i kids -> ~ H io ->
    let '(hit, d', io') := kids_origin kids p i io d in
    (hit = true -> (exists j, (i <= j < i + length kids)%nat /\ H j) /\ P d') /\ (hit = false -> ~ H io').
  Proof.
    induction kids as [|[c f] kids IH]; intros p i io d K N; cbn [kids_origin].
    - split; [discriminate|auto].
    - apply kids_ok_cons in K. destruct K as [[_ [K1 K2]] K]. cbn [fst snd] in *. destruct (hnode_has c p).
      + specialize (K1 d). specialize (K2 d). destruct (f d) as [hit d']. cbn [fst snd] in *. destruct hit.
        * split; [|discriminate]. intros _. split; [exists i; cbn [length]; split; [lia|tauto]|auto].
        * assert (NI : ~ H i). { intros X. apply K1 in X. discriminate. }
          specialize (IH p (S i) i d' K NI). destruct (kids_origin kids p (S i) i d') as [[hit d''] io']. destruct IH as [A B].
          split; auto. intros X. destruct (A X) as [[j [J1 J2]] J3]. split; auto. exists j. cbn [length]. split; [lia|auto].
      + specialize (IH p (S i) io d K N). destruct (kids_origin kids p (S i) io d) as [[hit d''] io']. destruct IH as [A B].
        split; auto. intros X. destruct (A X) as [[j [J1 J2]] J3]. split; auto. exists j. cbn [length]. split; [lia|auto].
  Qed.
  Lemma kids_other_spec : forall kids i io d, kids_ok i kids -> ~ H io ->
    let (hit, d') := kids_other kids i io d in
    (hit = true -> (exists j, (i <= j < i + length kids)%nat /\ H j) /\ P d') /\
    (hit = false -> forall j, (i <= j < i + length kids)%nat -> ~ H j).
  Proof.
    induction kids as [|[c f] kids IH]; intros i io d K N; cbn [kids_other].
    - cbn [length]. split; [discriminate|intros _ j J; lia].
    - apply kids_ok_cons in K. destruct K as [[K0 [K1 K2]] K]. cbn [fst snd] in *.
      assert (G : forall d, ~ H i -> let (hit, d') := kids_other kids (S i) io d in
        (hit = true -> (exists j, (i <= j < i + length ((c, f) :: kids))%nat /\ H j) /\ P d') /\
        (hit = false -> forall j, (i <= j < i + length ((c, f) :: kids))%nat -> ~ H j)).
      { intros d1 NI. specialize (IH (S i) io d1 K N). destruct (kids_other kids (S i) io d1) as [hit d']. destruct IH as [A B].
        cbn [length]. split.
        - intros X. destruct (A X) as [[j [J1 J2]] J3]. split; auto. exists j. split; [lia|auto].
        - intros X j J. destruct (Nat.eq_dec j i) as [->|]; auto. apply B; auto. lia. }
      destruct c as [|b occ c0 c1 c2 c3]; [apply G; auto|]. destruct (Nat.eqb i io) eqn:E.
      + apply Nat.eqb_eq in E. subst io. apply G. auto.
      + specialize (K1 d). specialize (K2 d). destruct (f d) as [hit d']. cbn [fst snd] in *. destruct hit.
        * split; [|discriminate]. intros _. cbn [length]. split; [exists i; split; [lia|tauto]|auto].
        * apply G. intros X. apply K1 in X. discriminate.
  Qed.
End Kids.

(** *** one column *)
Section Rays.
  Variables (g : list (list R)) (res : R) (o d : vec3 R) (t0 t1 : R).
  Hypothesis Hres : 0 < res.
  Hypothesis Hd : dir_ok d.
  Hypothesis Ht : t0 < t1.
  Let u := vnormalized d.
  Definition hits (x y : nat) : Prop :=
    0 < cell_at g x y /\ exists t, t0 < t < t1 /\ s_column res x y (cell_at g x y) (s_ray_at o u t).
  Definition entry (x y : nat) (dist : R) : Prop :=
    s_column res x y (cell_at g x y) (s_ray_at o u dist) /\ forall t, s_column res x y (cell_at g x y) (s_ray_at o u t) -> dist <= t.

  Lemma cell_mid : forall a k, (0 < k)%nat -> Nat.div (a + 2 ^ S k + a) 2 = (a + 2 ^ k)%nat.
  Proof.
    intros. replace (a + 2 ^ S k + a)%nat with ((a + 2 ^ k) * 2)%nat by (cbn [Nat.pow]; lia). apply Nat.div_mul. lia.
  Qed.
  Lemma node_box_in : forall x0 y0 x1 y1 M x y p, s_covers x0 y0 x1 y1 x y -> cell_at g x y <= M ->
    s_column res x y (cell_at g x y) p ->
    s_in_box (V3 (INR x0 * res) (INR y0 * res) 0) (V3 (INR x1 * res) (INR y1 * res) M) p.
  Proof.
    intros x0 y0 x1 y1 M x y p [CX CY] L [X [Y Z]]. unfold s_in_box. cbn [vx vy vz].
    assert (A : INR x0 <= INR x) by (apply le_INR; lia). assert (B : INR x + 1 <= INR x1) by (rewrite <- S_INR; apply le_INR; lia).
    assert (C : INR y0 <= INR y) by (apply le_INR; lia). assert (D : INR y + 1 <= INR y1) by (rewrite <- S_INR; apply le_INR; lia).
    pose proof (Rmult_le_compat_r res _ _ ltac:(lra) A). pose proof (Rmult_le_compat_r res _ _ ltac:(lra) B).
    pose proof (Rmult_le_compat_r res _ _ ltac:(lra) C). pose proof (Rmult_le_compat_r res _ _ ltac:(lra) D). lra.
  Qed.

  (** what the tree of a square of side 2^k answers *)
  Definition answers (x0 y0 n : nat) (nd : hnode R) : Prop := forall d0,
    (fst (hnode_ray nd (ray_make o d) t0 t1 d0) = true <-> exists x y, s_covers x0 y0 (x0 + n) (y0 + n) x y /\ hits x y) /\
    (fst (hnode_ray nd (ray_make o d) t0 t1 d0) = true ->
      exists x y, s_covers x0 y0 (x0 + n) (y0 + n) x y /\ hits x y /\ entry x y (snd (hnode_ray nd (ray_make o d) t0 t1 d0))).

  Lemma bind_ret : forall A B (x : outcome A) (f : A -> outcome B) b, obind x f = Ret b -> exists a, x = Ret a /\ f a = Ret b.
  Proof. intros A B [a| | |] f b E; try discriminate. eauto. Qed.

  Lemma quad_null : forall k fuel x0 y0 nd, quad_tree fuel g x0 y0 (x0 + 2 ^ k) (y0 + 2 ^ k) res = Ret nd ->
    nd = HNull -> forall x y, s_covers x0 y0 (x0 + 2 ^ k) (y0 + 2 ^ k) x y -> cell_at g x y <= 0.
  Proof.
    intros k [|fuel] x0 y0 nd Q N x y C; cbn [quad_tree] in Q; [discriminate|].
    destruct (max_height_R g x0 y0 (x0 + 2 ^ k) (y0 + 2 ^ k)) as [M0 [M1 _]]. cbv zeta in *.
    set (M := max_height _ _ _ _ _) in *. unR. destruct (Reqb M 0) eqn:E.
    - apply Reqb_true in E. specialize (M1 x y C). lra.
    - subst nd. destruct (_ || _)%bool; [destruct (_ && _)%bool; discriminate|].
      apply bind_ret in Q. destruct Q as [c0 [_ Q]]. apply bind_ret in Q. destruct Q as [c1 [_ Q]].
      apply bind_ret in Q. destruct Q as [c2 [_ Q]]. apply bind_ret in Q. destruct Q as [c3 [_ Q]]. discriminate.
  Qed.

  Lemma quad_ray : forall k fuel x0 y0 nd, quad_tree fuel g x0 y0 (x0 + 2 ^ k) (y0 + 2 ^ k) res = Ret nd -> answers x0 y0 (2 ^ k) nd.
  Proof.
    induction k as [|k IH]; intros fuel x0 y0 nd Q d0; (destruct fuel as [|fuel]; cbn [quad_tree] in Q; [discriminate|]).
    - change (2 ^ 0)%nat with 1%nat in *. destruct (max_height_R g x0 y0 (x0 + 1) (y0 + 1)) as [M0 [M1 M2]]. cbv zeta in *.
      set (M := max_height _ _ _ _ _) in *.
      assert (C1 : s_covers x0 y0 (x0 + 1) (y0 + 1) x0 y0) by (unfold s_covers; lia).
      assert (CU : forall x y, s_covers x0 y0 (x0 + 1) (y0 + 1) x y -> x = x0 /\ y = y0) by (unfold s_covers; intros; lia).
      unfold answers. destruct (M =? n0)%num eqn:E; unR.
      + apply Reqb_true in E. injection Q as <-. cbn [hnode_ray fst snd]. split; [|discriminate].
        split; [discriminate|]. intros [x [y [C [CP _]]]]. specialize (M1 x y C). lra.
      + apply Reqb_false in E. replace (x0 + 1 - x0)%nat with 1%nat in Q by lia. replace (y0 + 1 - y0)%nat with 1%nat in Q by lia.
        cbn [Nat.eqb orb andb] in Q. rewrite <- ?INR_IZR_INZ, ?nidx_R in Q.
        assert (MC : M = cell_at g x0 y0).
        { destruct M2 as [|[x [y [C <-]]]]; [lra|]. apply CU in C. destruct C as [-> ->]. auto. }
        injection Q as <-. cbn [hnode_ray].
        set (b := box_make _ _).
        assert (CB : forall p, s_in_box (b_min b) (b_max b) p <-> s_column res x0 y0 (cell_at g x0 y0) p).
        { intros p. unfold b, s_in_box, s_column. cbn [box_make b_min b_max vx vy vz]. rewrite !plus_INR. cbn [INR]. rewrite MC. tauto. }
        assert (O : s_ordered (b_min b) (b_max b)).
        { unfold s_ordered, b. cbn [box_make b_min b_max vx vy vz]. rewrite !plus_INR. cbn [INR]. repeat split; try lra;
          apply Rmult_le_compat_r; lra. }
        pose proof (ray_box_exact b o d t0 t1 d0 O Hd Ht) as X. cbv zeta in X. destruct (box_ray b (ray_make o d) t0 t1 d0) as [hit dist].
        destruct X as [X1 X2]. fold u in X1, X2.
        assert (HI : hit = true <-> hits x0 y0).
        { rewrite X1. unfold hits. split.
          - intros [t [T1 T2]]. split; [lra|]. exists t. split; auto. apply CB. auto.
          - intros [_ [t [T1 T2]]]. exists t. split; auto. apply CB. auto. }
        destruct hit; cbn [negb fst snd].
        * split.
          { split; auto. intros _. exists x0, y0. split; auto. apply HI. auto. }
          intros _. exists x0, y0. split; auto. split; [apply HI; auto|]. destruct (X2 eq_refl) as [Y1 Y2]. split; [apply CB; auto|].
          intros t T. apply Y2. apply CB. auto.
        * split; [|discriminate]. split; [discriminate|]. intros [x [y [C HH]]]. apply CU in C. destruct C as [-> ->]. apply HI in HH. discriminate.
    - destruct (max_height_R g x0 y0 (x0 + 2 ^ S k) (y0 + 2 ^ S k)) as [M0 [M1 M2]]. cbv zeta in *.
      set (M := max_height _ _ _ _ _) in *. unfold answers. unR. destruct (Reqb M 0) eqn:E.
      + apply Reqb_true in E. injection Q as <-. cbn [hnode_ray fst snd]. split; [|discriminate].
        split; [discriminate|]. intros [x [y [C [CP _]]]]. specialize (M1 x y C). lra.
      + apply Reqb_false in E.
        assert (P2 : (0 < 2 ^ k)%nat) by (apply Nat.neq_0_lt_0, Nat.pow_nonzero; lia).
        assert (PS : (2 ^ S k = 2 ^ k + 2 ^ k)%nat) by (cbn [Nat.pow]; lia).
        replace (Nat.eqb (x0 + 2 ^ S k - x0) 1) with false in Q by (symmetry; apply Nat.eqb_neq; lia).
        replace (Nat.eqb (y0 + 2 ^ S k - y0) 1) with false in Q by (symmetry; apply Nat.eqb_neq; lia).
        cbn [orb] in Q.
        replace (Nat.div (x0 + 2 ^ S k + x0) 2) with (x0 + 2 ^ k)%nat in Q
          by (symmetry; replace (x0 + 2 ^ S k + x0)%nat with ((x0 + 2 ^ k) * 2)%nat by lia; apply Nat.div_mul; lia).
        replace (Nat.div (y0 + 2 ^ S k + y0) 2) with (y0 + 2 ^ k)%nat in Q
          by (symmetry; replace (y0 + 2 ^ S k + y0)%nat with ((y0 + 2 ^ k) * 2)%nat by lia; apply Nat.div_mul; lia).
        replace (x0 + 2 ^ S k)%nat with (x0 + 2 ^ k + 2 ^ k)%nat in Q by lia.
        replace (y0 + 2 ^ S k)%nat with (y0 + 2 ^ k + 2 ^ k)%nat in Q by lia.
        apply bind_ret in Q. destruct Q as [c0 [Q0 Q]]. apply bind_ret in Q. destruct Q as [c1 [Q1 Q]].
        apply bind_ret in Q. destruct Q as [c2 [Q2 Q]]. apply bind_ret in Q. destruct Q as [c3 [Q3 Q]]. injection Q as <-.
        rewrite <- ?INR_IZR_INZ, ?nidx_R. cbn [hnode_ray]. set (b := box_make _ _).
        assert (BM : b_min b = V3 (INR x0 * res) (INR y0 * res) 0 /\ b_max b = V3 (INR (x0 + 2 ^ S k) * res) (INR (y0 + 2 ^ S k) * res) M).
        { split; unfold b; cbn [box_make b_min b_max]; auto. replace (x0 + 2 ^ k + 2 ^ k)%nat with (x0 + 2 ^ S k)%nat by lia.
          replace (y0 + 2 ^ k + 2 ^ k)%nat with (y0 + 2 ^ S k)%nat by lia. auto. }
        assert (O : s_ordered (b_min b) (b_max b)).
        { destruct BM as [-> ->]. unfold s_ordered. cbn [vx vy vz]. repeat split; try lra; apply Rmult_le_compat_r; try lra; apply le_INR; lia. }
        pose proof (ray_box_exact b o d t0 t1 d0 O Hd Ht) as X. cbv zeta in X. destruct (box_ray b (ray_make o d) t0 t1 d0) as [hit dist].
        destruct X as [X1 _]. fold u in X1.
        assert (UP : (exists x y, s_covers x0 y0 (x0 + 2 ^ S k) (y0 + 2 ^ S k) x y /\ hits x y) -> hit = true).
        { intros [x [y [C [CP [t [T1 T2]]]]]]. apply X1. exists t. split; auto. destruct BM as [-> ->].
          apply (node_box_in _ _ _ _ M x y); auto. }
        destruct hit; cbn [negb fst snd]; [|split; [|discriminate]; split; [discriminate|intros Y; apply UP in Y; discriminate]].
        clear UP X1 O BM b.
        set (RH := fun a b' => exists x y, s_covers a b' (a + 2 ^ k) (b' + 2 ^ k) x y /\ hits x y).
        set (H := fun j => match j with 0 => RH x0 y0 | 1 => RH (x0 + 2 ^ k)%nat y0 | 2 => RH x0 (y0 + 2 ^ k)%nat
                                   | 3 => RH (x0 + 2 ^ k)%nat (y0 + 2 ^ k)%nat | _ => False end%nat).
        set (P := fun dist => exists x y, s_covers x0 y0 (x0 + 2 ^ S k) (y0 + 2 ^ S k) x y /\ hits x y /\ entry x y dist).
        assert (HH : (exists x y, s_covers x0 y0 (x0 + 2 ^ S k) (y0 + 2 ^ S k) x y /\ hits x y) <-> exists j, (j < 4)%nat /\ H j).
        { split.
          - intros [x [y [[C1 C2] HI]]]. destruct (le_lt_dec (x0 + 2 ^ k) x), (le_lt_dec (y0 + 2 ^ k) y).
            + exists 3%nat. split; [lia|]. exists x, y. split; auto. unfold s_covers. lia.
            + exists 1%nat. split; [lia|]. exists x, y. split; auto. unfold s_covers. lia.
            + exists 2%nat. split; [lia|]. exists x, y. split; auto. unfold s_covers. lia.
            + exists 0%nat. split; [lia|]. exists x, y. split; auto. unfold s_covers. lia.
          - intros [j [J HJ]]. destruct j as [|[|[|[|]]]]; try lia; destruct HJ as [x [y [C HI]]]; exists x, y; split; auto;
            unfold s_covers in *; lia. }
        assert (KO : forall c j a b', (a = x0 \/ a = x0 + 2 ^ k)%nat -> (b' = y0 \/ b' = y0 + 2 ^ k)%nat -> H j = RH a b' ->
          quad_tree fuel g a b' (a + 2 ^ k) (b' + 2 ^ k) res = Ret c ->
          kid_ok H P j (c, hnode_ray c (ray_make o d) t0 t1)).
        { intros c j a b' EA EB EH QQ. unfold kid_ok. cbn [fst snd]. rewrite EH. repeat split.
          - intros N [x [y [C [CP _]]]]. pose proof (quad_null k fuel a b' c QQ N x y C). lra.
          - intros Y. apply (IH fuel a b' c QQ d1). auto.
          - intros Y. apply (IH fuel a b' c QQ d1). auto.
          - intros d1 Y. destruct (IH fuel a b' c QQ d1) as [_ Z]. destruct (Z Y) as [x [y [C Z']]]. exists x, y. split; auto.
            unfold s_covers in *. lia. }
        assert (KS : kids_ok H P 0 [(c0, hnode_ray c0 (ray_make o d) t0 t1); (c1, hnode_ray c1 (ray_make o d) t0 t1);
                                    (c2, hnode_ray c2 (ray_make o d) t0 t1); (c3, hnode_ray c3 (ray_make o d) t0 t1)]).
        { intros j kf J. destruct j as [|[|[|[|j]]]]; cbn [nth_error] in J; try (injection J as <-); cbn [Nat.add].
          - apply (KO c0 0%nat x0 y0); auto.
          - apply (KO c1 1%nat (x0 + 2 ^ k)%nat y0); auto.
          - apply (KO c2 2%nat x0 (y0 + 2 ^ k)%nat); auto.
          - apply (KO c3 3%nat (x0 + 2 ^ k)%nat (y0 + 2 ^ k)%nat); auto.
          - destruct j; discriminate. }
        pose proof (kids_origin_spec H P _ (r_o (ray_make o d)) 0 5 dist KS (fun f => f)) as S1.
        destruct (kids_origin _ _ _ _ _) as [[h1 d1] io]. destruct S1 as [S1 S2]. destruct h1.
        { destruct (S1 eq_refl) as [[j [J1 J2]] J3]. cbn [fst snd]. split; auto. split; auto. intros _. apply HH. exists j. cbn [length] in J1. split; [lia|auto]. }
        pose proof (kids_other_spec H P _ 0 io d1 KS (S2 eq_refl)) as S3. destruct (kids_other _ _ _ _) as [h2 d2]. destruct S3 as [S3 S4].
        cbn [fst snd]. cbn [length] in S3, S4. rewrite HH. destruct h2.
        { destruct (S3 eq_refl) as [[j [J1 J2]] J3]. split; auto. split; auto. intros _. exists j. split; [lia|auto]. }
        split; [|discriminate]. split; [discriminate|]. intros [j [J1 J2]]. exfalso. apply (S4 eq_refl j); [lia|auto].
  Qed.
End Rays.

(** *** rays starting inside a column *)
Section Inside.
  Variables (g : list (list R)) (res : R) (o d : vec3 R) (t0 t1 : R).
  Hypothesis Hres : 0 < res.
  Hypothesis Hd : dir_ok d.
  Hypothesis Ht : t0 < t1.
  Variables (cx cy : nat).
  Hypothesis InX : INR cx * res < vx o < (INR cx + 1) * res.
  Hypothesis InY : INR cy * res < vy o < (INR cy + 1) * res.
  Hypothesis InZ : 0 <= vz o <= cell_at g cx cy.
  Hypothesis Hh : hits g res o d t0 t1 cx cy.

  Lemma quad_has : forall k fuel x0 y0 nd, quad_tree fuel g x0 y0 (x0 + 2 ^ k) (y0 + 2 ^ k) res = Ret nd ->
    (s_covers x0 y0 (x0 + 2 ^ k) (y0 + 2 ^ k) cx cy -> hnode_has nd o = true) /\
    (~ s_covers x0 y0 (x0 + 2 ^ k) (y0 + 2 ^ k) cx cy -> hnode_has nd o = false).
  Proof.
    intros k [|fuel] x0 y0 nd Q; cbn [quad_tree] in Q; [discriminate|].
    destruct (max_height_R g x0 y0 (x0 + 2 ^ k) (y0 + 2 ^ k)) as [M0 [M1 M2]]. cbv zeta in *. set (M := max_height _ _ _ _ _) in *.
    assert (G : forall occ c0 c1 c2 c3, nd = HNode (box_make (V3 (INR x0 * res) (INR y0 * res) 0) (V3 (INR (x0 + 2 ^ k) * res) (INR (y0 + 2 ^ k) * res) M)) occ c0 c1 c2 c3 ->
      (s_covers x0 y0 (x0 + 2 ^ k) (y0 + 2 ^ k) cx cy -> hnode_has nd o = true) /\
      (~ s_covers x0 y0 (x0 + 2 ^ k) (y0 + 2 ^ k) cx cy -> hnode_has nd o = false)).
    { intros occ c0 c1 c2 c3 ->. cbn [hnode_has].
      assert (BC : forall b : box R, box_contains b o = true <-> s_in_box (b_min b) (b_max b) o).
      { intros b. unfold box_contains, s_in_box. rewrite !andb_true_iff. cbn [nleb NumR]. rewrite !Rleb_true. tauto. }
      split.
      - intros C. apply BC. cbn [box_make b_min b_max]. apply (node_box_in g res Hres _ _ _ _ M cx cy); auto. unfold s_column. lra.
      - intros C. destruct (box_contains _ o) eqn:E; auto. exfalso. apply C. apply BC in E. cbn [box_make b_min b_max] in E.
        destruct E as [EX [EY _]]. cbn [vx vy] in EX, EY.
        assert (L : forall a b, INR a * res < (INR b + 1) * res -> (a <= b)%nat).
        { intros a b H. apply Rmult_lt_reg_r in H; auto. rewrite <- S_INR in H. apply INR_lt in H. lia. }
        assert (L' : forall a b, INR a * res < INR b * res -> (a < b)%nat).
        { intros a b H. apply Rmult_lt_reg_r in H; auto. apply INR_lt in H. lia. }
        repeat split; [apply L; lra|apply L'; lra|apply L; lra|apply L'; lra]. }
    destruct (M =? n0)%num eqn:E; unR.
    - apply Reqb_true in E. injection Q as <-. split; [|auto]. intros C. specialize (M1 cx cy C). destruct Hh as [HP _]. lra.
    - destruct (_ || _)%bool in Q.
      + destruct (_ && _)%bool in Q; [|discriminate]. rewrite <- ?INR_IZR_INZ, ?nidx_R in Q. injection Q as <-. eapply G. reflexivity.
      + apply bind_ret in Q. destruct Q as [c0 [_ Q]]. apply bind_ret in Q. destruct Q as [c1 [_ Q]].
        apply bind_ret in Q. destruct Q as [c2 [_ Q]]. apply bind_ret in Q. destruct Q as [c3 [_ Q]].
        rewrite <- ?INR_IZR_INZ, ?nidx_R in Q. injection Q as <-. eapply G. reflexivity.
  Qed.

  Lemma quad_inside : forall k fuel x0 y0 nd, quad_tree fuel g x0 y0 (x0 + 2 ^ k) (y0 + 2 ^ k) res = Ret nd ->
    s_covers x0 y0 (x0 + 2 ^ k) (y0 + 2 ^ k) cx cy -> forall d0,
    fst (hnode_ray nd (ray_make o d) t0 t1 d0) = true /\ entry g res o d cx cy (snd (hnode_ray nd (ray_make o d) t0 t1 d0)).
  Proof.
    induction k as [|k IH]; intros fuel x0 y0 nd Q C d0.
    - destruct (quad_ray g res o d t0 t1 Hres Hd Ht 0 fuel x0 y0 nd Q d0) as [A B].
      assert (F : fst (hnode_ray nd (ray_make o d) t0 t1 d0) = true) by (apply A; exists cx, cy; auto). split; auto.
      destruct (B F) as [x [y [C' [_ E]]]]. change (2 ^ 0)%nat with 1%nat in *.
      assert (x = cx) as -> by (unfold s_covers in *; lia). assert (y = cy) as -> by (unfold s_covers in *; lia). auto.
    - assert (F : fst (hnode_ray nd (ray_make o d) t0 t1 d0) = true).
      { apply (quad_ray g res o d t0 t1 Hres Hd Ht (S k) fuel x0 y0 nd Q d0). exists cx, cy. auto. }
      split; auto. destruct fuel as [|fuel]; cbn [quad_tree] in Q; [discriminate|].
      destruct (neqb _ _) in Q; [injection Q as <-; discriminate F|].
      assert (P2 : (0 < 2 ^ k)%nat) by (apply Nat.neq_0_lt_0, Nat.pow_nonzero; lia).
      assert (PS : (2 ^ S k = 2 ^ k + 2 ^ k)%nat) by (cbn [Nat.pow]; lia).
      replace (Nat.eqb (x0 + 2 ^ S k - x0) 1) with false in Q by (symmetry; apply Nat.eqb_neq; lia).
      replace (Nat.eqb (y0 + 2 ^ S k - y0) 1) with false in Q by (symmetry; apply Nat.eqb_neq; lia).
      cbn [orb] in Q.
      replace (Nat.div (x0 + 2 ^ S k + x0) 2) with (x0 + 2 ^ k)%nat in Q
        by (symmetry; replace (x0 + 2 ^ S k + x0)%nat with ((x0 + 2 ^ k) * 2)%nat by lia; apply Nat.div_mul; lia).
      replace (Nat.div (y0 + 2 ^ S k + y0) 2) with (y0 + 2 ^ k)%nat in Q
        by (symmetry; replace (y0 + 2 ^ S k + y0)%nat with ((y0 + 2 ^ k) * 2)%nat by lia; apply Nat.div_mul; lia).
      replace (x0 + 2 ^ S k)%nat with (x0 + 2 ^ k + 2 ^ k)%nat in Q by lia.
      replace (y0 + 2 ^ S k)%nat with (y0 + 2 ^ k + 2 ^ k)%nat in Q by lia.
      apply bind_ret in Q. destruct Q as [c0 [Q0 Q]]. apply bind_ret in Q. destruct Q as [c1 [Q1 Q]].
      apply bind_ret in Q. destruct Q as [c2 [Q2 Q]]. apply bind_ret in Q. destruct Q as [c3 [Q3 Q]]. injection Q as <-.
      revert F. cbn [hnode_ray]. destruct (box_ray _ _ _ _ _) as [hit dist]. destruct hit; cbn [negb fst snd]; [|discriminate]. intros _.
      change (r_o (ray_make o d)) with o. unfold kids_origin.
      destruct (quad_has k fuel _ _ _ Q0) as [H0 N0]. destruct (quad_has k fuel _ _ _ Q1) as [H1 N1].
      destruct (quad_has k fuel _ _ _ Q2) as [H2 N2]. destruct (quad_has k fuel _ _ _ Q3) as [H3 N3].
      destruct (le_lt_dec (x0 + 2 ^ k) cx) as [LX|LX], (le_lt_dec (y0 + 2 ^ k) cy) as [LY|LY]; unfold s_covers in *.
      + rewrite N0, N1, N2, H3 by lia. destruct (IH fuel _ _ _ Q3 ltac:(lia) dist) as [I1 I2].
        destruct (hnode_ray c3 _ _ _ dist) as [h d']. cbn [fst snd] in *. subst h. exact I2.
      + rewrite N0, H1 by lia. destruct (IH fuel _ _ _ Q1 ltac:(lia) dist) as [I1 I2].
        destruct (hnode_ray c1 _ _ _ dist) as [h d']. cbn [fst snd] in *. subst h. exact I2.
      + rewrite N0, N1, H2 by lia. destruct (IH fuel _ _ _ Q2 ltac:(lia) dist) as [I1 I2].
        destruct (hnode_ray c2 _ _ _ dist) as [h d']. cbn [fst snd] in *. subst h. exact I2.
      + rewrite H0 by lia. destruct (IH fuel _ _ _ Q0 ltac:(lia) dist) as [I1 I2].
        destruct (hnode_ray c0 _ _ _ dist) as [h d']. cbn [fst snd] in *. subst h. exact I2.
  Qed.

  (** with t0 >= 0 no other hit column is entered earlier *)
  Lemma inside_nearest : 0 <= t0 -> forall x y e e', hits g res o d t0 t1 x y -> entry g res o d x y e -> entry g res o d cx cy e' -> e' <= e.
  Proof.
    intros T x y e e' [HP [t [T1 T2]]] [E1 E2] [E1' E2'].
    assert (Z : forall v : vec3 R, s_ray_at o v 0 = o). { intros v. destruct o as [ox oy oz]. unfold s_ray_at. cbn [vx vy vz]. apply V3_eq; ring. }
    assert (E0 : e' <= 0). { apply E2'. rewrite Z. unfold s_column. lra. }
    destruct (Rle_dec e' e) as [|NE]; auto. exfalso.
    assert (I : s_column res x y (cell_at g x y) o).
    { assert (EL : e <= t) by (apply E2; auto). assert (e <= 0) by lra. assert (0 < t) by lra.
      set (u := vnormalized d) in *. unfold s_column, s_ray_at in *. cbn [vx vy vz] in *.
      set (w := t / (t - e)). assert (W : 0 <= w <= 1).
      { unfold w. split; [apply Rmult_le_pos; [lra|left; apply Rinv_0_lt_compat; lra]|]. apply Rmult_le_reg_r with (t - e); [lra|]. unfold Rdiv. rewrite Rmult_assoc, Rinv_l; lra. }
      assert (WZ : w * e + (1 - w) * t = 0) by (unfold w; field; lra).
      assert (CV : forall lo hi a b, lo <= a + e * b <= hi -> lo <= a + t * b <= hi -> lo <= a <= hi).
      { intros lo hi a b A B. replace a with (w * (a + e * b) + (1 - w) * (a + t * b)).
        - split.
          + replace lo with (w * lo + (1 - w) * lo) by ring. apply Rplus_le_compat; apply Rmult_le_compat_l; lra.
          + replace hi with (w * hi + (1 - w) * hi) by ring. apply Rplus_le_compat; apply Rmult_le_compat_l; lra.
        - replace (w * (a + e * b) + (1 - w) * (a + t * b)) with (a + (w * e + (1 - w) * t) * b) by ring. rewrite WZ. ring. }
      destruct E1 as [A1 [A2 A3]], T2 as [B1 [B2 B3]]. split; [|split]; (eapply CV; eassumption). }
    destruct I as [IX [IY _]].
    assert (U : forall a b c, INR a * res <= c <= (INR a + 1) * res -> INR b * res < c < (INR b + 1) * res -> a = b).
    { intros a b c A B. assert (X : INR a * res < (INR b + 1) * res) by lra. assert (Y : INR b * res < (INR a + 1) * res) by lra.
      apply Rmult_lt_reg_r in X, Y; auto. rewrite <- S_INR in X, Y. apply INR_lt in X, Y. lia. }
    assert (x = cx) as -> by (eapply U; eauto). assert (y = cy) as -> by (eapply U; eauto).
    assert (e' <= e) by (apply E2'; auto). lra.
  Qed.
End Inside.
