(** Height map rays on doubles: the quad tree loses no column *)
From Coq Require Import ZArith NArith List Bool Lia Reals Lra.
From Flocq Require Import Core BinarySingleNaN.
From Verif Require Import Num NumOrd MathTypes Outcome Mesh Box Spec SpecRound P_Tac P_Math P_Mesh P_Box P_Round P_Round3 P_OctF P_OctF2 P_F32 P_RayF HeightMap SpecHeight
  P_Height P_HeightMesh.
Import ListNotations.
Local Open Scope R_scope.

(** *** the quad tree over any scalar type, given that the boxes of the nodes are hit whenever a column below them is *)
Section Quad.
  Context {T : Type} {NT : Num T}.
  Context (g : list (list T)) (res : T) (r : ray T) (t0 t1 : T).
  Definition node_box (x0 y0 x1 y1 : nat) (h : T) : box T :=
    box_make (V3 (nmul (nidx x0) res) (nmul (nidx y0) res) n0) (V3 (nmul (nidx x1) res) (nmul (nidx y1) res) h).
  Definition colbox (x y : nat) : box T := node_box x y (x + 1) (y + 1) (cell_at g x y).
  Definition pos (x y : nat) : Prop := nltb n0 (cell_at g x y) = true.
  Definition gentry (x y : nat) (dist : T) : Prop := forall d, box_ray (colbox x y) r t0 t1 d = (true, dist).
  Definition ghits (x y : nat) : Prop := pos x y /\ exists dist, gentry x y dist.
  Definition H_zero : Prop := neqb (n0 : T) n0 = true.
  Definition H_max K : Prop := forall x0 y0 x1 y1 x y, (x1 <= K)%nat -> (y1 <= K)%nat -> s_covers x0 y0 x1 y1 x y -> pos x y -> neqb (max_height g x0 y0 x1 y1) n0 = false.
  Definition H_nested K : Prop := forall x0 y0 x1 y1 x y d, (x1 <= K)%nat -> (y1 <= K)%nat -> s_covers x0 y0 x1 y1 x y -> pos x y ->
    fst (box_ray (colbox x y) r t0 t1 d) = true -> fst (box_ray (node_box x0 y0 x1 y1 (max_height g x0 y0 x1 y1)) r t0 t1 d) = true.

  Lemma box_ray_indep : forall (b : box T) d d', fst (box_ray b r t0 t1 d) = true -> box_ray b r t0 t1 d' = box_ray b r t0 t1 d.
  Proof. intros b d d'. unfold box_ray. cbv zeta. destruct (_ || _)%bool; [discriminate|]. destruct (_ || _)%bool; [discriminate|]. reflexivity. Qed.
  Lemma gentry_of : forall x y d, fst (box_ray (colbox x y) r t0 t1 d) = true -> gentry x y (snd (box_ray (colbox x y) r t0 t1 d)).
  Proof. intros x y d H d'. rewrite (box_ray_indep _ d d' H). destruct (box_ray _ r t0 t1 d). cbn in *. congruence. Qed.

  Lemma leaf_max : H_zero -> forall x y, neqb (max_height g x y (x + 1) (y + 1)) n0 = false -> pos x y /\ max_height g x y (x + 1) (y + 1) = cell_at g x y.
  Proof.
    intros Z x y. unfold max_height, pos. replace (x + 1 - x)%nat with 1%nat by lia. replace (y + 1 - y)%nat with 1%nat by lia. cbn [seq fold_left].
    unfold nmax. destruct (nltb n0 (cell_at g x y)); auto. rewrite Z. discriminate.
  Qed.

  Context (K : nat) (HZ : H_zero) (HM : H_max K) (HN : H_nested K).
  Definition ganswers (x0 y0 n : nat) (nd : hnode T) : Prop := forall d0,
    (fst (hnode_ray nd r t0 t1 d0) = true <-> exists x y, s_covers x0 y0 (x0 + n) (y0 + n) x y /\ ghits x y) /\
    (fst (hnode_ray nd r t0 t1 d0) = true ->
      exists x y, s_covers x0 y0 (x0 + n) (y0 + n) x y /\ ghits x y /\ gentry x y (snd (hnode_ray nd r t0 t1 d0))).

  Lemma gquad_null : forall k fuel x0 y0 nd, (x0 + 2 ^ k <= K)%nat -> (y0 + 2 ^ k <= K)%nat -> quad_tree fuel g x0 y0 (x0 + 2 ^ k) (y0 + 2 ^ k) res = Ret nd ->
    nd = HNull -> forall x y, s_covers x0 y0 (x0 + 2 ^ k) (y0 + 2 ^ k) x y -> ~ pos x y.
  Proof.
    intros k [|fuel] x0 y0 nd KX KY Q N x y C PO; cbn [quad_tree] in Q; [discriminate|].
    rewrite (HM _ _ _ _ x y KX KY C PO) in Q. subst nd. destruct (_ || _)%bool; [destruct (_ && _)%bool; discriminate|].
    apply bind_ret in Q. destruct Q as [c0 [_ Q]]. apply bind_ret in Q. destruct Q as [c1 [_ Q]].
    apply bind_ret in Q. destruct Q as [c2 [_ Q]]. apply bind_ret in Q. destruct Q as [c3 [_ Q]]. discriminate.
  Qed.

  Lemma gquad_ray : forall k fuel x0 y0 nd, (x0 + 2 ^ k <= K)%nat -> (y0 + 2 ^ k <= K)%nat -> quad_tree fuel g x0 y0 (x0 + 2 ^ k) (y0 + 2 ^ k) res = Ret nd -> ganswers x0 y0 (2 ^ k) nd.
  Proof.
    induction k as [|k IH]; intros fuel x0 y0 nd KX KY Q d0; (destruct fuel as [|fuel]; cbn [quad_tree] in Q; [discriminate|]).
    - change (2 ^ 0)%nat with 1%nat in *.
      assert (C1 : s_covers x0 y0 (x0 + 1) (y0 + 1) x0 y0) by (unfold s_covers; lia).
      assert (CU : forall x y, s_covers x0 y0 (x0 + 1) (y0 + 1) x y -> x = x0 /\ y = y0) by (unfold s_covers; intros; lia).
      destruct (neqb (max_height g x0 y0 (x0 + 1) (y0 + 1)) n0) eqn:E.
      + injection Q as <-. cbn [hnode_ray fst snd]. split; [|discriminate].
        split; [discriminate|]. intros [x [y [C [CP _]]]]. rewrite (HM _ _ _ _ x y KX KY C CP) in E. discriminate.
      + destruct (leaf_max HZ x0 y0 E) as [PO MC]. rewrite MC in Q.
        replace (x0 + 1 - x0)%nat with 1%nat in Q by lia. replace (y0 + 1 - y0)%nat with 1%nat in Q by lia.
        cbn [Nat.eqb orb andb] in Q. injection Q as <-. cbn [hnode_ray]. fold (node_box x0 y0 (x0 + 1) (y0 + 1) (cell_at g x0 y0)).
        fold (colbox x0 y0).
        assert (GO : fst (box_ray (colbox x0 y0) r t0 t1 d0) = true -> gentry x0 y0 (snd (box_ray (colbox x0 y0) r t0 t1 d0))) by apply gentry_of.
        destruct (box_ray (colbox x0 y0) r t0 t1 d0) as [hit dist] eqn:BR. cbn [fst snd] in GO.
        destruct hit; cbn [negb fst snd].
        * specialize (GO eq_refl). assert (GH : ghits x0 y0) by (split; eauto). split.
          { split; auto. intros _. exists x0, y0. auto. }
          intros _. exists x0, y0. auto.
        * split; [|discriminate]. split; [discriminate|]. intros [x [y [C [_ [dd HH]]]]]. apply CU in C. destruct C as [-> ->].
          rewrite (HH d0) in BR. discriminate.
    - destruct (neqb (max_height g x0 y0 (x0 + 2 ^ S k) (y0 + 2 ^ S k)) n0) eqn:E.
      + injection Q as <-. cbn [hnode_ray fst snd]. split; [|discriminate].
        split; [discriminate|]. intros [x [y [C [CP _]]]]. rewrite (HM _ _ _ _ x y KX KY C CP) in E. discriminate.
      + assert (P2 : (0 < 2 ^ k)%nat) by (apply Nat.neq_0_lt_0, Nat.pow_nonzero; lia).
        assert (PS : (2 ^ S k = 2 ^ k + 2 ^ k)%nat) by (cbn [Nat.pow]; lia).
        replace (Nat.eqb (x0 + 2 ^ S k - x0) 1) with false in Q by (symmetry; apply Nat.eqb_neq; lia).
        replace (Nat.eqb (y0 + 2 ^ S k - y0) 1) with false in Q by (symmetry; apply Nat.eqb_neq; lia).
        cbn [orb] in Q. cbv zeta in Q.
        fold (node_box x0 y0 (x0 + 2 ^ S k) (y0 + 2 ^ S k) (max_height g x0 y0 (x0 + 2 ^ S k) (y0 + 2 ^ S k))) in Q.
        set (b := node_box _ _ _ _ _) in Q.
        assert (UP : forall x y, s_covers x0 y0 (x0 + 2 ^ S k) (y0 + 2 ^ S k) x y -> ghits x y -> fst (box_ray b r t0 t1 d0) = true).
        { intros x y C [PO [dd G]]. apply (HN _ _ _ _ x y); auto. rewrite (G d0). reflexivity. }
        clearbody b.
        replace (Nat.div (x0 + 2 ^ S k + x0) 2) with (x0 + 2 ^ k)%nat in Q
          by (symmetry; replace (x0 + 2 ^ S k + x0)%nat with ((x0 + 2 ^ k) * 2)%nat by lia; apply Nat.div_mul; lia).
        replace (Nat.div (y0 + 2 ^ S k + y0) 2) with (y0 + 2 ^ k)%nat in Q
          by (symmetry; replace (y0 + 2 ^ S k + y0)%nat with ((y0 + 2 ^ k) * 2)%nat by lia; apply Nat.div_mul; lia).
        replace (x0 + 2 ^ S k)%nat with (x0 + 2 ^ k + 2 ^ k)%nat in Q by lia.
        replace (y0 + 2 ^ S k)%nat with (y0 + 2 ^ k + 2 ^ k)%nat in Q by lia.
        apply bind_ret in Q. destruct Q as [c0 [Q0 Q]]. apply bind_ret in Q. destruct Q as [c1 [Q1 Q]].
        apply bind_ret in Q. destruct Q as [c2 [Q2 Q]]. apply bind_ret in Q. destruct Q as [c3 [Q3 Q]]. injection Q as <-.
        cbn [hnode_ray]. destruct (box_ray b r t0 t1 d0) as [hit dist]. cbn [fst] in UP.
        destruct hit; cbn [negb fst snd]; [|split; [|discriminate]; split; [discriminate|intros [x [y [C HI]]]; specialize (UP x y C HI); discriminate]].
        clear UP b.
        set (RH := fun a b' => exists x y, s_covers a b' (a + 2 ^ k) (b' + 2 ^ k) x y /\ ghits x y).
        set (H := fun j => match j with 0 => RH x0 y0 | 1 => RH (x0 + 2 ^ k)%nat y0 | 2 => RH x0 (y0 + 2 ^ k)%nat
                                   | 3 => RH (x0 + 2 ^ k)%nat (y0 + 2 ^ k)%nat | _ => False end%nat).
        set (P := fun dist => exists x y, s_covers x0 y0 (x0 + 2 ^ S k) (y0 + 2 ^ S k) x y /\ ghits x y /\ gentry x y dist).
        assert (HH : (exists x y, s_covers x0 y0 (x0 + 2 ^ S k) (y0 + 2 ^ S k) x y /\ ghits x y) <-> exists j, (j < 4)%nat /\ H j).
        { split.
          - intros [x [y [[C1 C2] HI]]]. destruct (le_lt_dec (x0 + 2 ^ k) x), (le_lt_dec (y0 + 2 ^ k) y).
            + exists 3%nat. split; [lia|]. exists x, y. split; auto. unfold s_covers. lia.
            + exists 1%nat. split; [lia|]. exists x, y. split; auto. unfold s_covers. lia.
            + exists 2%nat. split; [lia|]. exists x, y. split; auto. unfold s_covers. lia.
            + exists 0%nat. split; [lia|]. exists x, y. split; auto. unfold s_covers. lia.
          - intros [j [J HJ]]. destruct j as [|[|[|[|]]]]; try lia; destruct HJ as [x [y [C HI]]]; exists x, y; split; auto;
            unfold s_covers in *; lia. }
        assert (KO : forall c j a b', (a = x0 \/ a = x0 + 2 ^ k)%nat -> (b' = y0 \/ b' = y0 + 2 ^ k)%nat -> H j = RH a b' ->
          quad_tree fuel g a b' (a + 2 ^ k) (b' + 2 ^ k) res = Ret c ->
          kid_ok H P j (c, hnode_ray c r t0 t1)).
        { intros c j a b' EA EB EH QQ. assert (KA : (a + 2 ^ k <= K)%nat) by lia. assert (KB : (b' + 2 ^ k <= K)%nat) by lia.
          unfold kid_ok. cbn [fst snd]. rewrite EH. repeat split.
          - intros N [x [y [C [CP _]]]]. exact (gquad_null k fuel a b' c KA KB QQ N x y C CP).
          - intros Y. apply (IH fuel a b' c KA KB QQ d). auto.
          - intros Y. apply (IH fuel a b' c KA KB QQ d). auto.
          - intros d1 Y. destruct (IH fuel a b' c KA KB QQ d1) as [_ Z]. destruct (Z Y) as [x [y [C Z']]]. exists x, y. split; auto.
            unfold s_covers in *. lia. }
        assert (KS : kids_ok H P 0 [(c0, hnode_ray c0 r t0 t1); (c1, hnode_ray c1 r t0 t1); (c2, hnode_ray c2 r t0 t1); (c3, hnode_ray c3 r t0 t1)]).
        { intros j kf J. destruct j as [|[|[|[|j]]]]; cbn [nth_error] in J; try (injection J as <-); cbn [Nat.add].
          - apply (KO c0 0%nat x0 y0); auto.
          - apply (KO c1 1%nat (x0 + 2 ^ k)%nat y0); auto.
          - apply (KO c2 2%nat x0 (y0 + 2 ^ k)%nat); auto.
          - apply (KO c3 3%nat (x0 + 2 ^ k)%nat (y0 + 2 ^ k)%nat); auto.
          - destruct j; discriminate. }
        pose proof (kids_origin_spec H P _ (r_o r) 0 5 dist KS (fun f => f)) as S1.
        destruct (kids_origin _ _ _ _ _) as [[h1 d1] io]. destruct S1 as [S1 S2]. destruct h1.
        { destruct (S1 eq_refl) as [[j [J1 J2]] J3]. cbn [fst snd]. split; auto. split; auto. intros _. apply HH. exists j. cbn [length] in J1. split; [lia|auto]. }
        pose proof (kids_other_spec H P _ 0 io d1 KS (S2 eq_refl)) as S3. destruct (kids_other _ _ _ _) as [h2 d2]. destruct S3 as [S3 S4].
        cbn [fst snd]. cbn [length] in S3, S4. rewrite HH. destruct h2.
        { destruct (S3 eq_refl) as [[j [J1 J2]] J3]. split; auto. split; auto. intros _. exists j. split; [lia|auto]. }
        split; [|discriminate]. split; [discriminate|]. intros [j [J1 J2]]. exfalso. apply (S4 eq_refl j); [lia|auto].
  Qed.
End Quad.

(** *** what a returned height map consists of, any scalar type *)
Lemma pow_ret31 : forall size fuel j p, (j <= 31)%nat -> pow_size fuel (2 ^ N.of_nat j) size = Ret p -> (size <= 2 ^ 31)%N ->
  exists k, p = (2 ^ N.of_nat k)%N /\ (size <= 2 ^ N.of_nat k)%N /\ (k <= 31)%nat.
Proof.
  intros size fuel j p J E L. revert j J E. induction fuel as [|fuel IH]; intros j J E; [discriminate|]. cbn [pow_size] in E.
  destruct (N.ltb_spec (2 ^ N.of_nat j) size) as [A|A]; [|injection E as <-; exists j; auto].
  destruct (Nat.eq_dec j 31) as [->|]; [change (N.of_nat 31) with 31%N in A; lia|].
  apply (IH (S j)); [lia|]. rewrite <- E. f_equal. unfold u32. rewrite Nnat.Nat2N.inj_succ, N.pow_succ_r'. rewrite N.mod_small; [apply N.mul_comm|].
  assert (2 ^ N.of_nat j <= 2 ^ 30)%N by (apply N.pow_le_mono_r; lia). change 4294967296%N with (2 ^ 30 * 4)%N. lia.
Qed.
Lemma pow_nat : forall k, N.to_nat (2 ^ N.of_nat k) = (2 ^ k)%nat.
Proof. induction k; auto. rewrite Nnat.Nat2N.inj_succ, N.pow_succ_r', Nnat.N2Nat.inj_mul, IHk. cbn [Nat.pow]. lia. Qed.
Section Inv.
  Context {T : Type} {NT : Num T}.
  Lemma cell_out : forall (g : list (list T)) my x y, s_rect g my -> ~ ((x < length g)%nat /\ (y < my)%nat) -> cell_at g x y = n0.
  Proof.
    intros g my x y R N. unfold cell_at. destruct (le_lt_dec (length g) x); [rewrite nth_overflow with (l := g) by auto; destruct y; auto|].
    rewrite nth_overflow; auto. rewrite (R (nth x g [])) by (apply nth_In; auto). lia.
  Qed.
  Lemma from_grid_tree : forall fuel (g : list (list T)) my res hm, s_rect g my -> (N.of_nat (length g) <= 2 ^ 31)%N -> (N.of_nat my <= 2 ^ 31)%N -> from_grid fuel g res = Ret hm ->
    exists k pg, (k <= 31)%nat /\ (length g <= 2 ^ k)%nat /\ (my <= 2 ^ k)%nat /\ (forall x y, cell_at pg x y = cell_at g x y) /\
      quad_tree fuel pg 0 0 (2 ^ k) (2 ^ k) res = Ret (hm_root hm).
  Proof.
    intros fuel g my res hm R S1 S2 H. unfold from_grid in H. destruct g as [|row0 g']; [discriminate|].
    set (g := row0 :: g') in *. assert (E0 : length row0 = my) by (apply R; left; auto). rewrite E0 in H.
    assert (U : forall n, (n <= 2 ^ 31)%N -> u32 n = n).
    { intros n L. unfold u32. apply N.mod_small. change 4294967296%N with (2 * 2 ^ 31)%N. lia. }
    rewrite !U in H by auto.
    apply bind_ret in H. destruct H as [p [P H]]. change 1%N with (2 ^ N.of_nat 0)%N in P. apply pow_ret31 in P; [|lia|lia]. destruct P as [k [-> [K KL]]].
    rewrite pow_nat in H.
    assert (K1 : (length g <= 2 ^ k)%nat) by (rewrite <- pow_nat; lia). assert (K2 : (my <= 2 ^ k)%nat) by (rewrite <- pow_nat; lia).
    destruct (pow_grid_cell g my (2 ^ k) R K2) as [pg [PG PC]]. rewrite PG in H. cbn [obind] in H.
    apply bind_ret in H. destruct H as [root [Q H]]. apply bind_ret in H. destruct H as [m [F H]]. injection H as <-.
    exists k, pg. cbn [hm_root]. auto 10.
  Qed.
  Lemma ray_root : forall (h : hmap T) r t0 t1 d, hm_ray h r t0 t1 d = hnode_ray (hm_root h) r t0 t1 d.
  Proof. intros [b [|bx occ c0 c1 c2 c3]] r t0 t1 d; reflexivity. Qed.
End Inv.

(** *** the ray-box test on doubles is monotone in the box, for every direction *)
Lemma zero_R : fin (n0 : F64) = true /\ B2R (n0 : F64) = 0.
Proof. exact (ofZ_R 0 ltac:(lia)). Qed.
Lemma inv_any : forall u : F64, fin u = true -> fin (inv1 u) = true /\ Rabs (B2R (inv1 u)) <= 4 * 10 ^ 9 /\
  (nltb u n0 = true -> B2R (inv1 u) <= 0) /\ (nltb u n0 = false -> 0 <= B2R (inv1 u)).
Proof.
  intros u F. destruct zero_R as [FZ EZ]. unfold inv1. destruct lit_R as [FL EL]. destruct (abs_R u F) as [FA EA].
  rewrite (ltb_R _ _ FA FL), EA, EL. rewrite (ltb_R _ _ F FZ), EZ.
  destruct (Rltb (Rabs (B2R u)) (rnd (1 / 10 ^ 9))) eqn:E; rboolH.
  { rewrite EZ, Rabs_R0. split; auto. split; [lra|]. split; lra. }
  assert (L : / (2 * 10 ^ 9) <= Rabs (B2R u)).
  { pose proof (rnd_err (1 / 10 ^ 9)) as X.
    pose proof eta_w. assert (bpow radix2 (-200) <= / 10 ^ 12).
    { apply Rle_trans with (bpow radix2 (-60)); [apply bpow_le; lia|]. change (bpow radix2 (-60)) with (/ 1152921504606846976). lra. }
    rewrite (Rabs_right (1 / 10 ^ 9)) in X by lra. apply Rabs_le_inv in X. unfold uro in X. lra. }
  assert (NZ : B2R u <> 0) by (intro Z; rewrite Z, Rabs_R0 in L; lra).
  assert (AP : 0 < Rabs (B2R u)) by (apply Rabs_pos_lt; auto).
  assert (I : Rabs (1 / B2R u) = 1 / Rabs (B2R u)) by (unfold Rdiv; rewrite Rabs_mult, Rabs_R1, Rabs_inv; auto).
  assert (IH : 1 / Rabs (B2R u) <= 2 * 10 ^ 9).
  { apply Rmult_le_reg_r with (Rabs (B2R u)); [lra|]. unfold Rdiv. rewrite Rmult_1_l, Rinv_l by lra. lra. }
  destruct (ofZ_R 1 ltac:(lia)) as [A B]. destruct (div_R (nofZ 1) u A NZ) as [D E'].
  { rewrite B, I. pose proof big_ge. lra. }
  rewrite B in E'. unfold n1. split; [exact D|]. rewrite E'. split; [|split; intro S; rboolH].
  - pose proof (rnd_err (1 / B2R u)) as X. rewrite I in X. pose proof eta_w.
    assert (bpow radix2 (-200) <= 1) by (change 1 with (bpow radix2 0); apply bpow_le; lia).
    apply Rle_trans with (Rabs (1 / B2R u) + Rabs (rnd (1 / B2R u) - 1 / B2R u)).
    + eapply Rle_trans; [|apply Rabs_triang]. right. f_equal. ring.
    + rewrite I. unfold uro in X. lra.
  - apply rnd_le_gen; [apply gen_0|]. unfold Rdiv. rewrite Rmult_1_l. left. apply Rinv_lt_0_compat; auto.
  - apply rnd_ge_gen; [apply gen_0|]. unfold Rdiv. rewrite Rmult_1_l. left. apply Rinv_0_lt_compat. lra.
Qed.

Lemma tau_any : forall b o u : F64, fin b = true -> fin o = true -> fin u = true -> Rabs (B2R b) <= 10 ^ 20 -> Rabs (B2R o) <= 10 ^ 20 ->
  fin (tau b o u) = true /\ B2R (tau b o u) = rnd32 (rnd (rnd (B2R b - B2R o) * B2R (inv1 u))).
Proof.
  intros b o u FB FO FU BB BO. destruct (inv_any u FU) as [FI [BI _]].
  pose proof big_ge as BG. pose proof c127 as C127.
  set (D := B2R b - B2R o). assert (DB : Rabs D <= 2 * 10 ^ 20).
  { unfold D. apply Rabs_le. apply Rabs_le_inv in BB, BO. lra. }
  destruct (sub_R b o FB FO) as [FS ES]; [fold D; lra|]. fold D in ES.
  assert (SE : Rabs (rnd D - D) <= uro * Rabs D).
  { destruct (opp_R o FO) as [_ OO]. pose proof (rnd_plus (B2R b) (B2R (nopp o)) (gen_B2R _) (gen_B2R _)) as X. rewrite OO in X. exact X. }
  set (s := rnd D) in *. set (v := B2R (inv1 u)) in *.
  assert (SB : Rabs s <= Rabs D + uro * Rabs D).
  { replace s with (D + (s - D)) by ring. eapply Rle_trans; [apply Rabs_triang|]. lra. }
  assert (PB : Rabs (s * v) <= 10 ^ 30).
  { rewrite Rabs_mult. apply Rle_trans with ((5 / 2 * 10 ^ 20) * (4 * 10 ^ 9)); [|lra].
    apply Rmult_le_compat; try apply Rabs_pos; auto. unfold uro in SB. lra. }
  destruct (mul_R (nsub b o) (inv1 u) FS FI) as [FM EM]; [rewrite ES; fold v; lra|]. rewrite ES in EM. fold v in EM.
  pose proof (rnd_err (s * v)) as PE. set (p := rnd (s * v)) in *.
  assert (PP : Rabs p <= 10 ^ 33).
  { replace p with (s * v + (p - s * v)) by ring. eapply Rle_trans; [apply Rabs_triang|]. pose proof eta_w. 
    assert (bpow radix2 (-200) <= 1) by (change 1 with (bpow radix2 0); apply bpow_le; lia). unfold uro in PE. lra. }
  destruct (nf32_spec (nmul (nsub b o) (inv1 u)) FM) as [FT ET].
  { rewrite EM. apply Rle_lt_trans with (bpow radix2 127); [apply rnd32_small; try lia; lra|apply bpow_lt; lia]. }
  rewrite EM in ET. split; [exact FT|exact ET].
Qed.

(** one axis: near and far parameters, and how they move when the interval grows *)
Lemma axis_any : forall mn mx mn' mx' o u : F64, fin mn = true -> fin mx = true -> fin mn' = true -> fin mx' = true -> fin o = true -> fin u = true ->
  Rabs (B2R mn) <= 10 ^ 20 -> Rabs (B2R mx) <= 10 ^ 20 -> Rabs (B2R mn') <= 10 ^ 20 -> Rabs (B2R mx') <= 10 ^ 20 -> Rabs (B2R o) <= 10 ^ 20 ->
  B2R mn' <= B2R mn <= B2R mx -> B2R mx <= B2R mx' ->
  let near mn mx := tau (if nltb u n0 then mx else mn) o u in let far mn mx := tau (if negb (nltb u n0) then mx else mn) o u in
  fin (near mn mx) = true /\ fin (far mn mx) = true /\ fin (near mn' mx') = true /\ fin (far mn' mx') = true /\
  B2R (near mn' mx') <= B2R (near mn mx) <= B2R (far mn mx) /\ B2R (far mn mx) <= B2R (far mn' mx').
Proof.
  intros mn mx mn' mx' o u F1 F2 F3 F4 FO FU B1 B2 B3 B4 BO [L1 L2] L3.
  destruct (inv_any u FU) as [_ [_ [SN SP]]].
  destruct (tau_any mn o u) as [T1 E1]; auto. destruct (tau_any mx o u) as [T2 E2]; auto.
  destruct (tau_any mn' o u) as [T3 E3]; auto. destruct (tau_any mx' o u) as [T4 E4]; auto. cbv zeta.
  assert (M : forall a b, a <= b -> rnd (a - B2R o) <= rnd (b - B2R o)) by (intros; apply rnd_le; lra).
  destruct (nltb u n0); cbn [negb]; repeat (split; [auto; fail|]); rewrite E1, E2, E3, E4.
  - specialize (SN eq_refl). assert (G : forall a b, a <= b -> rnd32 (rnd (rnd (b - B2R o) * B2R (inv1 u))) <= rnd32 (rnd (rnd (a - B2R o) * B2R (inv1 u)))).
    { intros a b H. apply rnd32_le, rnd_le. specialize (M a b H). nra. }
    auto.
  - specialize (SP eq_refl). assert (G : forall a b, a <= b -> rnd32 (rnd (rnd (a - B2R o) * B2R (inv1 u))) <= rnd32 (rnd (rnd (b - B2R o) * B2R (inv1 u)))).
    { intros a b H. apply rnd32_le, rnd_le. specialize (M a b H). nra. }
    auto.
Qed.

Lemma box_ray_tau : forall (b : box F64) o d t0 t1 d0, box_ray b (ray_make o d) t0 t1 d0 =
    let w := vnormalized d in
    let a0 := tau (if nltb (vx w) n0 then vx (b_max b) else vx (b_min b)) (vx o) (vx w) in
    let z0 := tau (if negb (nltb (vx w) n0) then vx (b_max b) else vx (b_min b)) (vx o) (vx w) in
    let a1 := tau (if nltb (vy w) n0 then vy (b_max b) else vy (b_min b)) (vy o) (vy w) in
    let z1 := tau (if negb (nltb (vy w) n0) then vy (b_max b) else vy (b_min b)) (vy o) (vy w) in
    let a2 := tau (if nltb (vz w) n0 then vz (b_max b) else vz (b_min b)) (vz o) (vz w) in
    let z2 := tau (if negb (nltb (vz w) n0) then vz (b_max b) else vz (b_min b)) (vz o) (vz w) in
    (if nltb z1 a0 || nltb z0 a1 then (false, d0)
    else if nltb z2 (nmax a1 a0) || nltb (nmin z1 z0) a2 then (false, d0)
    else (nltb t0 (nmin z2 (nmin z1 z0)) && nltb (nmax a2 (nmax a1 a0)) t1, nmax a2 (nmax a1 a0)))%bool.
Proof.
  intros. unfold box_ray, ray_make, bnd, tau. cbv zeta. cbn [r_o r_d r_inv r_s0 r_s1 r_s2 vx vy vz].
  destruct (nltb (vx (vnormalized d)) n0), (nltb (vy (vnormalized d)) n0), (nltb (vz (vnormalized d)) n0); reflexivity.
Qed.

Definition okbox (mn mx : vec3 F64) : Prop := s_finv mn /\ s_finv mx /\ s_bound (10 ^ 20) (rv mn) /\ s_bound (10 ^ 20) (rv mx) /\ s_ordered (rv mn) (rv mx).
Lemma box_mono : forall (b b' : box F64) (o d : vec3 F64) (t0 t1 d0 : F64), okbox (b_min b) (b_max b) -> okbox (b_min b') (b_max b') ->
  s_finv o -> s_bound (10 ^ 20) (rv o) -> s_finv (vnormalized d) -> s_fin t0 -> s_fin t1 ->
  s_ordered (rv (b_min b')) (rv (b_min b)) -> s_ordered (rv (b_max b)) (rv (b_max b')) ->
  fst (box_ray b (ray_make o d) t0 t1 d0) = true ->
  fst (box_ray b' (ray_make o d) t0 t1 d0) = true /\ B2R (snd (box_ray b' (ray_make o d) t0 t1 d0)) <= B2R (snd (box_ray b (ray_make o d) t0 t1 d0)).
Proof.
  intros b b' o d t0 t1 d0 [[N1 [N2 N3]] [[X1 [X2 X3]] [[BN1 [BN2 BN3]] [[BX1 [BX2 BX3]] [O1 [O2 O3]]]]]]
    [[N1' [N2' N3']] [[X1' [X2' X3']] [[BN1' [BN2' BN3']] [[BX1' [BX2' BX3']] [O1' [O2' O3']]]]]]
    [OX [OY OZ]] [BO1 [BO2 BO3]] [UX [UY UZ]] F0 F1 [LN1 [LN2 LN3]] [LX1 [LX2 LX3]].
  cbn [vx vy vz rv] in *. rewrite !box_ray_tau. cbv zeta.
  destruct (axis_any (vx (b_min b)) (vx (b_max b)) (vx (b_min b')) (vx (b_max b')) (vx o) (vx (vnormalized d))) as [A1 [A2 [A3 [A4 [[A5 A6] A7]]]]]; auto.
  destruct (axis_any (vy (b_min b)) (vy (b_max b)) (vy (b_min b')) (vy (b_max b')) (vy o) (vy (vnormalized d))) as [B1 [B2 [B3 [B4 [[B5 B6] B7]]]]]; auto.
  destruct (axis_any (vz (b_min b)) (vz (b_max b)) (vz (b_min b')) (vz (b_max b')) (vz o) (vz (vnormalized d))) as [C1 [C2 [C3 [C4 [[C5 C6] C7]]]]]; auto.
  match type of A1 with fin ?v = _ => set (a0 := v) in * end. match type of A2 with fin ?v = _ => set (z0 := v) in * end.
  match type of A3 with fin ?v = _ => set (a0' := v) in * end. match type of A4 with fin ?v = _ => set (z0' := v) in * end.
  match type of B1 with fin ?v = _ => set (a1 := v) in * end. match type of B2 with fin ?v = _ => set (z1 := v) in * end.
  match type of B3 with fin ?v = _ => set (a1' := v) in * end. match type of B4 with fin ?v = _ => set (z1' := v) in * end.
  match type of C1 with fin ?v = _ => set (a2 := v) in * end. match type of C2 with fin ?v = _ => set (z2 := v) in * end.
  match type of C3 with fin ?v = _ => set (a2' := v) in * end. match type of C4 with fin ?v = _ => set (z2' := v) in * end.
  clearbody a0 z0 a0' z0' a1 z1 a1' z1' a2 z2 a2' z2'.
  pose proof (slabs_F a0 z0 a1 z1 a2 z2 t0 t1 d0 A1 A2 B1 B2 C1 C2 F0 F1 A6 B6 C6) as S.
  pose proof (slabs_F a0' z0' a1' z1' a2' z2' t0 t1 d0 A3 A4 B3 B4 C3 C4 F0 F1 ltac:(lra) ltac:(lra) ltac:(lra)) as S'. cbv zeta in S, S'.
  match type of S with (_ /\ fst ?r = _ /\ _) \/ _ => set (rs := r) in *; clearbody rs end.
  match type of S' with (_ /\ fst ?r = _ /\ _) \/ _ => set (rs' := r) in *; clearbody rs' end.
  assert (LO : Rmax (B2R a2') (Rmax (B2R a1') (B2R a0')) <= Rmax (B2R a2) (Rmax (B2R a1) (B2R a0))).
  { clear - A5 B5 C5. unfold Rmax. repeat destruct Rle_dec; lra. }
  assert (HI : Rmin (B2R z2) (Rmin (B2R z1) (B2R z0)) <= Rmin (B2R z2') (Rmin (B2R z1') (B2R z0'))).
  { clear - A7 B7 C7. unfold Rmin. repeat destruct Rle_dec; lra. }
  intros H. destruct S as [[G1 [G2 [_ G4]]]|[_ ->]]; [|discriminate H].
  destruct S' as [[K1 [K2 [_ K4]]]|[K1 _]]; [|lra]. rewrite G2 in H. apply andb_true_iff in H. destruct H as [H1 H2]. rewrite Rltb_true in H1, H2.
  split; [|lra]. rewrite K2. apply andb_true_iff. rewrite !Rltb_true. lra.
Qed.

(** *** the maximum of a block on doubles *)
Lemma max_height_F : forall (g : list (list F64)) x0 y0 x1 y1, (forall x y, fin (cell_at g x y) = true) -> let M := max_height g x0 y0 x1 y1 in
  fin M = true /\ 0 <= B2R M /\ (forall x y, s_covers x0 y0 x1 y1 x y -> B2R (cell_at g x y) <= B2R M) /\
  (B2R M = 0 \/ exists x y, B2R M = B2R (cell_at g x y)).
Proof.
  intros g x0 y0 x1 y1 FC. destruct zero_R as [FZ EZ].
  assert (ROW : forall x l (m : F64), fin m = true -> let M := fold_left (fun m y => nmax m (cell_at g x y)) l m in
    fin M = true /\ B2R m <= B2R M /\ (forall y, In y l -> B2R (cell_at g x y) <= B2R M) /\ (B2R M = B2R m \/ exists x y, B2R M = B2R (cell_at g x y))).
  { intros x. induction l as [|a l IH]; intros m FM; cbn [fold_left]; cbv zeta.
    - split; auto. split; [lra|]. split; [intros y []|]. auto.
    - destruct (max_R m (cell_at g x a) FM (FC x a)) as [F1 E1]. destruct (IH _ F1) as [A [B [C D]]]. rewrite E1 in B, D.
      split; auto. pose proof (Rmax_l (B2R m) (B2R (cell_at g x a))). pose proof (Rmax_r (B2R m) (B2R (cell_at g x a))). split; [lra|]. split.
      + intros y [<-|Y]; [lra|auto].
      + destruct D as [D|D]; [|auto]. rewrite D. unfold Rmax. destruct Rle_dec; [right; exists x, a|left]; auto. }
  assert (G : forall l (m : F64), fin m = true -> let M := fold_left (fun m x => fold_left (fun m y => nmax m (cell_at g x y)) (seq y0 (y1 - y0)) m) l m in
    fin M = true /\ B2R m <= B2R M /\ (forall x y, In x l -> (y0 <= y < y1)%nat -> B2R (cell_at g x y) <= B2R M) /\ (B2R M = B2R m \/ exists x y, B2R M = B2R (cell_at g x y))).
  { induction l as [|a l IH]; intros m FM; cbn [fold_left]; cbv zeta.
    - split; auto. split; [lra|]. split; [intros x y []|]. auto.
    - destruct (ROW a (seq y0 (y1 - y0)) m FM) as [F1 [L1 [C1 D1]]]. match type of F1 with fin ?v = _ => set (m' := v) in * end.
      destruct (IH m' F1) as [F2 [L2 [C2 D2]]]. split; auto. split; [lra|]. split.
      + intros x y [<-|X] Y; [|auto]. specialize (C1 y). rewrite in_seq in C1. specialize (C1 ltac:(lia)). lra.
      + destruct D2 as [D2|D2]; [|auto]. rewrite D2. auto. }
  pose proof (G (seq x0 (x1 - x0)) n0 FZ) as X. cbv zeta in X. change (fold_left _ (seq x0 (x1 - x0)) n0) with (max_height g x0 y0 x1 y1) in X.
  set (M := max_height g x0 y0 x1 y1) in *. clearbody M. destruct X as [A [B [C D]]]. cbv zeta.
  assert (B' : 0 <= B2R M) by (rewrite <- EZ; exact B). assert (D' : B2R M = 0 \/ exists x y, B2R M = B2R (cell_at g x y)) by (rewrite <- EZ; exact D). split; auto. split; auto. split; auto.
  intros x y [X Y]. apply C; auto. rewrite in_seq. lia.
Qed.
Lemma eqb0_F : forall x : F64, fin x = true -> 0 < B2R x -> neqb x n0 = false.
Proof.
  intros x F P. destruct zero_R as [FZ EZ]. apply nlt_neq. rewrite (ltb_R _ _ FZ F), EZ. apply Rltb_true. auto.
Qed.
Lemma idx_R : forall (x : nat) (res : F64), (Z.of_nat x <= 2 ^ 31)%Z -> fin res = true -> 0 < B2R res <= 10 ^ 9 ->
  fin (nmul (nidx x) res) = true /\ B2R (nmul (nidx x) res) = rnd (INR x * B2R res) /\ 0 <= INR x * B2R res <= 10 ^ 19.
Proof.
  intros x res L F B. unfold nidx. destruct (ofZ_R (Z.of_nat x) ltac:(lia)) as [FX EX].
  assert (R1 : 0 <= INR x) by apply pos_INR. assert (R2 : INR x <= 2147483648). { rewrite INR_IZR_INZ. apply IZR_le. lia. }
  assert (R3 : 0 <= INR x * B2R res) by (apply Rmult_le_pos; lra).
  assert (R4 : INR x * B2R res <= 10 ^ 19). { apply Rle_trans with (2147483648 * 10 ^ 9); [apply Rmult_le_compat; lra|lra]. }
  destruct (mul_R (nofZ (Z.of_nat x)) res FX F) as [A E].
  { rewrite EX, <- INR_IZR_INZ, Rabs_right by lra. pose proof big_ge. lra. }
  rewrite EX, <- INR_IZR_INZ in E. auto.
Qed.
Lemma idx_bound : forall (x : nat) (res : F64), (Z.of_nat x <= 2 ^ 31)%Z -> fin res = true -> 0 < B2R res <= 10 ^ 9 ->
  0 <= B2R (nmul (nidx x) res) <= 10 ^ 20.
Proof.
  intros x res L F B. destruct (idx_R x res L F B) as [_ [-> [P Q]]]. split; [apply rnd_ge_gen; [apply gen_0|auto]|].
  pose proof (rnd_err (INR x * B2R res)) as X. rewrite (Rabs_right (INR x * _)) in X by lra. apply Rabs_le_inv in X. pose proof eta_w.
  assert (bpow radix2 (-200) <= 1) by (change 1 with (bpow radix2 0); apply bpow_le; lia). unfold uro in X. lra.
Qed.
Lemma idx_mono : forall (x y : nat) (res : F64), (x <= y)%nat -> (Z.of_nat y <= 2 ^ 31)%Z -> fin res = true -> 0 < B2R res <= 10 ^ 9 ->
  B2R (nmul (nidx x) res) <= B2R (nmul (nidx y) res).
Proof.
  intros x y res L LY F B. destruct (idx_R x res ltac:(lia) F B) as [_ [-> _]]. destruct (idx_R y res LY F B) as [_ [-> _]].
  apply rnd_le. apply Rmult_le_compat_r; [lra|]. apply le_INR. auto.
Qed.

Lemma node_ok : forall (res : F64) x0 y0 x1 y1 h, fin res = true -> 0 < B2R res <= 10 ^ 9 -> (Z.of_nat x1 <= 2 ^ 31)%Z -> (Z.of_nat y1 <= 2 ^ 31)%Z ->
  (x0 <= x1)%nat -> (y0 <= y1)%nat -> fin h = true -> 0 <= B2R h <= 10 ^ 20 ->
  okbox (b_min (node_box res x0 y0 x1 y1 h)) (b_max (node_box res x0 y0 x1 y1 h)).
Proof.
  intros res x0 y0 x1 y1 h F B LX LY X Y FH BH. unfold okbox, node_box. cbn [b_min b_max box_make]. destruct zero_R as [FZ EZ].
  destruct (idx_R x0 res ltac:(lia) F B) as [F1 _]. destruct (idx_R y0 res ltac:(lia) F B) as [F2 _].
  destruct (idx_R x1 res LX F B) as [F3 _]. destruct (idx_R y1 res LY F B) as [F4 _].
  pose proof (idx_bound x0 res ltac:(lia) F B). pose proof (idx_bound y0 res ltac:(lia) F B). pose proof (idx_bound x1 res LX F B). pose proof (idx_bound y1 res LY F B).
  pose proof (idx_mono x0 x1 res X LX F B). pose proof (idx_mono y0 y1 res Y LY F B).
  unfold s_finv, s_bound, s_ordered, s_fin. cbn [vx vy vz rv]. rewrite EZ. rewrite !Rabs_right by lra. repeat split; auto; lra.
Qed.

Section TreeF.
  Context (g : list (list F64)) (res : F64) (o d : vec3 F64) (t0 t1 : F64).
  Context (FC : forall x y, fin (cell_at g x y) = true) (BC : forall x y, B2R (cell_at g x y) <= 10 ^ 20).
  Context (FR : fin res = true) (BR : 0 < B2R res <= 10 ^ 9).
  Context (FO : s_finv o) (BO : s_bound (10 ^ 20) (rv o)) (FU : s_finv (vnormalized d)) (F0 : s_fin t0) (F1 : s_fin t1).
  Lemma pos_F : forall x y, pos g x y <-> 0 < B2R (cell_at g x y).
  Proof. intros x y. unfold pos. destruct zero_R as [FZ EZ]. rewrite (ltb_R _ _ FZ (FC x y)), EZ. apply Rltb_true. Qed.
  Lemma H_zero_F : H_zero (T := F64).
  Proof. vm_compute. reflexivity. Qed.
  Lemma H_max_F : forall K, H_max g K.
  Proof.
    intros K x0 y0 x1 y1 x y _ _ C P. apply pos_F in P. destruct (max_height_F g x0 y0 x1 y1 FC) as [A [_ [B _]]]. cbv zeta in *.
    apply eqb0_F; auto. specialize (B x y C). lra.
  Qed.
  Lemma H_nested_F : forall K, (Z.of_nat K <= 2 ^ 31)%Z -> H_nested g res (ray_make o d) t0 t1 K.
  Proof.
    intros K LK x0 y0 x1 y1 x y d0 KX KY [CX CY] P H. apply pos_F in P. destruct (max_height_F g x0 y0 x1 y1 FC) as [A [A0 [B M]]]. cbv zeta in *.
    specialize (B x y (conj CX CY)). set (h := max_height g x0 y0 x1 y1) in *.
    assert (HB : B2R h <= 10 ^ 20). { destruct M as [->|[x' [y' ->]]]; [lra|apply BC]. }
    apply (box_mono (colbox g res x y)); auto.
    - apply node_ok; auto; try lia. pose proof (BC x y). lra.
    - apply node_ok; auto; try lia.
    - unfold s_ordered, colbox, node_box. cbn [b_min b_max box_make vx vy vz rv]. repeat split; [apply idx_mono|apply idx_mono|lra]; auto; lia.
    - unfold s_ordered, colbox, node_box. cbn [b_min b_max box_make vx vy vz rv]. repeat split; [apply idx_mono|apply idx_mono|lra]; auto; lia.
  Qed.
End TreeF.
