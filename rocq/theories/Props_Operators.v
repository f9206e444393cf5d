(** * C95: assignments, compound assignments, comparisons and element access of the mathematical types *)
From Coq Require Import ZArith Reals List Bool Lia Lra.
From Flocq Require Import Core.Raux IEEE754.BinarySingleNaN.
From Verif Require Import Num MathTypes Outcome Operators SpecOps.
Import ListNotations.

(** ** the statements one by one *)
Section Each.
  Context {T : Type}.
  Implicit Types m : nat -> T.

  Lemma st_same m a x : st m a x a = x.
  Proof. unfold st. now rewrite Nat.eqb_refl. Qed.
  Lemma st_other m a x k : k <> a -> st m a x k = m k.
  Proof. intro H. unfold st. apply Nat.eqb_neq in H. now rewrite H. Qed.

  Lemma each_frame op n : forall i a b m k, (k < a + i \/ a + i + n <= k)%nat -> each op n i a b m k = m k.
  Proof.
    induction n as [|n IH]; intros i a b m k H; cbn; [reflexivity|].
    rewrite IH by lia. apply st_other. lia.
  Qed.

  Lemma each_in op n : forall i a b m j, (a = b \/ a + i + n <= b + i \/ b + i + n <= a + i)%nat -> (j < n)%nat ->
    each op n i a b m (a + i + j) = op (m (a + i + j)) (m (b + i + j)).
  Proof.
    induction n as [|n IH]; intros i a b m j H J; [lia|]. cbn [each].
    destruct j as [|j].
    - rewrite !Nat.add_0_r. rewrite each_frame by lia. apply st_same.
    - replace (a + i + S j)%nat with (a + S i + j)%nat by lia. replace (b + i + S j)%nat with (b + S i + j)%nat by lia.
      rewrite IH by lia. now rewrite !st_other by lia.
  Qed.

  Lemma eachs_frame op n : forall i a s m k, (k < a + i \/ a + i + n <= k)%nat -> eachs op n i a s m k = m k.
  Proof.
    induction n as [|n IH]; intros i a s m k H; cbn; [reflexivity|].
    rewrite IH by lia. apply st_other. lia.
  Qed.

  Lemma eachs_in op n : forall i a s m j, (j < n)%nat -> eachs op n i a s m (a + i + j) = op (m (a + i + j)) s.
  Proof.
    induction n as [|n IH]; intros i a s m j J; [lia|]. cbn [eachs].
    destruct j as [|j].
    - rewrite !Nat.add_0_r. rewrite eachs_frame by lia. apply st_same.
    - replace (a + i + S j)%nat with (a + S i + j)%nat by lia.
      rewrite IH by lia. now rewrite !st_other by lia.
  Qed.

  Lemma nth_map2 (op : T -> T -> T) : forall l k i z, nth_error (s_map2 op l k) i = Some z ->
    exists x y, nth_error l i = Some x /\ nth_error k i = Some y /\ z = op x y.
  Proof.
    induction l as [|x l IH]; intros [|y k] [|i] z; cbn; try discriminate.
    - intro H. injection H as <-. eauto.
    - apply IH.
  Qed.

  Lemma each_holds op n a b m l k : s_apart n a b -> length l = n -> length k = n ->
    s_holds m a l -> s_holds m b k -> s_holds (each op n 0 a b m) a (s_map2 op l k) /\ s_frame n a m (each op n 0 a b m).
  Proof.
    intros Ap L K Hl Hk. split.
    - intros i z Hz. apply nth_map2 in Hz. destruct Hz as (x & y & Hx & Hy & ->).
      assert (i < n)%nat as J by (rewrite <- L; apply nth_error_Some; congruence).
      pose proof (each_in op n 0 a b m i) as E. rewrite !Nat.add_0_r in E.
      rewrite E by (unfold s_apart in Ap; lia). now rewrite (Hl _ _ Hx), (Hk _ _ Hy).
    - intros c Hc. apply each_frame. lia.
  Qed.

  Lemma eachs_holds op n a s m l : length l = n -> s_holds m a l ->
    s_holds (eachs op n 0 a s m) a (map (fun x => op x s) l) /\ s_frame n a m (eachs op n 0 a s m).
  Proof.
    intros L Hl. split.
    - intros i z Hz. rewrite nth_error_map in Hz. destruct (nth_error l i) as [x|] eqn:Hx; [|discriminate].
      cbn in Hz. injection Hz as <-.
      assert (i < n)%nat as J by (rewrite <- L; apply nth_error_Some; congruence).
      pose proof (eachs_in op n 0 a s m i J) as E. rewrite !Nat.add_0_r in E. rewrite E. now rewrite (Hl _ _ Hx).
    - intros c Hc. apply eachs_frame. lia.
  Qed.

  Lemma assign_holds n a b m k : s_apart n a b -> length k = n -> s_holds m b k ->
    s_holds (assign n a b m) a k /\ s_frame n a m (assign n a b m).
  Proof.
    intros Ap K Hk. unfold assign. destruct (Nat.eqb_spec a b) as [E|E].
    - subst. split; [assumption|]. intros c _. reflexivity.
    - split.
      + intros i z Hz. assert (i < n)%nat as J by (rewrite <- K; apply nth_error_Some; congruence).
        pose proof (each_in (fun _ y => y) n 0 a b m i) as F. rewrite !Nat.add_0_r in F.
        rewrite F by (unfold s_apart in Ap; lia). exact (Hk _ _ Hz).
      + intros c Hc. apply each_frame. lia.
  Qed.
End Each.

Section Compound.
  Context {T : Type} {NT : Num T}.
  Local Open Scope num_scope.

  (** C95: a += b, a -= b, a *= b and a /= b leave in a the old components of a and b combined, also when b is a itself, and
      nothing else changes (in particular not b, if it is another object) *)
  Theorem C95_compound3 (m : nat -> T) (a b : nat) (x y z x' y' z' : T) :
    s_apart 3 a b -> s_holds m a [x; y; z] -> s_holds m b [x'; y'; z'] ->
    (s_holds (v3_addeq a b m) a [x + x'; y + y'; z + z'] /\ s_frame 3 a m (v3_addeq a b m)) /\
    (s_holds (v3_subeq a b m) a [x - x'; y - y'; z - z'] /\ s_frame 3 a m (v3_subeq a b m)) /\
    (s_holds (v3_muleq a b m) a [x * x'; y * y'; z * z'] /\ s_frame 3 a m (v3_muleq a b m)) /\
    (s_holds (v3_diveq a b m) a [x / x'; y / y'; z / z'] /\ s_frame 3 a m (v3_diveq a b m)).
  Proof.
    intros Ap Ha Hb.
    repeat match goal with |- _ /\ _ => split end; eapply each_holds with (l := [x; y; z]) (k := [x'; y'; z']); eauto.
  Qed.

  Theorem C95_compound2 (m : nat -> T) (a b : nat) (x y x' y' : T) :
    s_apart 2 a b -> s_holds m a [x; y] -> s_holds m b [x'; y'] ->
    (s_holds (v2_addeq a b m) a [x + x'; y + y'] /\ s_frame 2 a m (v2_addeq a b m)) /\
    (s_holds (v2_subeq a b m) a [x - x'; y - y'] /\ s_frame 2 a m (v2_subeq a b m)) /\
    (s_holds (v2_muleq a b m) a [x * x'; y * y'] /\ s_frame 2 a m (v2_muleq a b m)) /\
    (s_holds (v2_diveq a b m) a [x / x'; y / y'] /\ s_frame 2 a m (v2_diveq a b m)).
  Proof.
    intros Ap Ha Hb.
    repeat match goal with |- _ /\ _ => split end; eapply each_holds with (l := [x; y]) (k := [x'; y']); eauto.
  Qed.

  (** C95: v *= s and v /= s use the value s had before the statement, even if s is a component of v; normalize divides by
      the length the object had before *)
  Theorem C95_scalar (m : nat -> T) (a : nat) (x y z w : T) :
    s_holds m a [x; y; z; w] ->
    (forall c, let s := m c in
      (s_holds (v3_muls a (m c) m) a [x * s; y * s; z * s] /\ s_frame 3 a m (v3_muls a (m c) m)) /\
      (s_holds (v3_divs a (m c) m) a [x / s; y / s; z / s] /\ s_frame 3 a m (v3_divs a (m c) m)) /\
      (s_holds (v2_muls a (m c) m) a [x * s; y * s] /\ s_frame 2 a m (v2_muls a (m c) m)) /\
      (s_holds (v2_divs a (m c) m) a [x / s; y / s] /\ s_frame 2 a m (v2_divs a (m c) m))) /\
    (let l := nsqrt (x * x + y * y) in s_holds (v2_normalize a m) a [x / l; y / l] /\ s_frame 2 a m (v2_normalize a m)) /\
    (let l := nsqrt (x * x + y * y + z * z) in
      s_holds (v3_normalize a m) a [x / l; y / l; z / l] /\ s_frame 3 a m (v3_normalize a m)) /\
    (let l := nsqrt (x * x + y * y + z * z + w * w) in
      s_holds (q_normalize a m) a [x / l; y / l; z / l; w / l] /\ s_frame 4 a m (q_normalize a m)).
  Proof.
    intros H.
    assert (m a = x) as E0 by (specialize (H 0%nat x eq_refl); now rewrite Nat.add_0_r in H).
    assert (m (a + 1)%nat = y) as E1 by (apply (H 1%nat); reflexivity).
    assert (m (a + 2)%nat = z) as E2 by (apply (H 2%nat); reflexivity).
    assert (m (a + 3)%nat = w) as E3 by (apply (H 3%nat); reflexivity).
    assert (s_holds m a [x; y]) as H2.
    { intros [|[|i]] v Hv; cbn in Hv; [| |destruct i; discriminate]; apply H; exact Hv. }
    assert (s_holds m a [x; y; z]) as H3.
    { intros [|[|[|i]]] v Hv; cbn in Hv; [| | |destruct i; discriminate]; apply H; exact Hv. }
    split; [intro c; cbv zeta|split; [|split]].
    - repeat match goal with |- _ /\ _ => split end;
        first [eapply (eachs_holds nmul 3 a (m c) m [x; y; z]) | eapply (eachs_holds ndiv 3 a (m c) m [x; y; z])
              | eapply (eachs_holds nmul 2 a (m c) m [x; y]) | eapply (eachs_holds ndiv 2 a (m c) m [x; y])]; auto.
    - cbv zeta. unfold v2_normalize, ld2, v2length. cbn [v2x v2y]. rewrite E0, E1.
      apply (eachs_holds ndiv 2 a _ m [x; y]); auto.
    - cbv zeta. unfold v3_normalize, ld3, vlength. cbn [vx vy vz]. rewrite E0, E1, E2.
      apply (eachs_holds ndiv 3 a _ m [x; y; z]); auto.
    - cbv zeta. unfold q_normalize, ldq, qlength. cbn [qx qy qz qw]. rewrite E0, E1, E2, E3.
      apply (eachs_holds ndiv 4 a _ m [x; y; z; w]); auto.
  Qed.

  (** C95: assignment copies all components and changes nothing else; assigning an object to itself changes nothing *)
  Theorem C95_assign (m : nat -> T) (a b : nat) :
    (forall k, length k = 2%nat -> s_apart 2 a b -> s_holds m b k -> s_holds (v2_assign a b m) a k /\ s_frame 2 a m (v2_assign a b m)) /\
    (forall k, length k = 3%nat -> s_apart 3 a b -> s_holds m b k -> s_holds (v3_assign a b m) a k /\ s_frame 3 a m (v3_assign a b m)) /\
    (forall k, length k = 4%nat -> s_apart 4 a b -> s_holds m b k -> s_holds (m2_assign a b m) a k /\ s_frame 4 a m (m2_assign a b m)) /\
    (forall k, length k = 4%nat -> s_apart 4 a b -> s_holds m b k -> s_holds (q_assign a b m) a k /\ s_frame 4 a m (q_assign a b m)) /\
    (forall k, length k = 9%nat -> s_apart 9 a b -> s_holds m b k -> s_holds (m3_assign a b m) a k /\ s_frame 9 a m (m3_assign a b m)) /\
    (forall k, length k = 6%nat -> s_apart 6 a b -> s_holds m b k -> s_holds (t2_assign a b m) a k /\ s_frame 6 a m (t2_assign a b m)) /\
    (forall k, length k = 12%nat -> s_apart 12 a b -> s_holds m b k -> s_holds (t3_assign a b m) a k /\ s_frame 12 a m (t3_assign a b m)) /\
    (forall i, v2_assign a a m i = m i /\ v3_assign a a m i = m i /\ m2_assign a a m i = m i /\ q_assign a a m i = m i /\
      m3_assign a a m i = m i /\ t2_assign a a m i = m i /\ t3_assign a a m i = m i).
  Proof.
    assert (TR : forall n1 n2 k, (0 < n1)%nat -> length k = (n1 + n2)%nat -> s_apart (n1 + n2) a b -> s_holds m b k ->
      let r := if Nat.eqb a b then m else assign n2 (a + n1) (b + n1) (assign n1 a b m) in
      s_holds r a k /\ s_frame (n1 + n2) a m r).
    { intros n1 n2 k Pos K Ap Hk. cbv zeta. destruct (Nat.eqb_spec a b) as [E|E].
      - subst. split; [exact Hk|]. intros c _. reflexivity.
      - assert (a + (n1 + n2) <= b \/ b + (n1 + n2) <= a)%nat as D by (unfold s_apart in Ap; lia).
        set (k1 := firstn n1 k). set (k2 := skipn n1 k).
        assert (length k1 = n1) as L1 by (unfold k1; rewrite firstn_length; lia).
        assert (length k2 = n2) as L2 by (unfold k2; rewrite skipn_length; lia).
        assert (k = k1 ++ k2) as Ek by (symmetry; apply firstn_skipn).
        destruct (assign_holds n1 a b m k1) as [A1 F1]; [unfold s_apart; lia|exact L1| |].
        { intros i x Hx. apply Hk. rewrite Ek, nth_error_app1; [exact Hx|]. apply nth_error_Some. congruence. }
        destruct (assign_holds n2 (a + n1) (b + n1) (assign n1 a b m) k2) as [A2 F2]; [unfold s_apart; lia|exact L2| |].
        { intros i x Hx. assert (i < n2)%nat by (rewrite <- L2; apply nth_error_Some; congruence).
          rewrite F1 by lia. rewrite <- Nat.add_assoc. apply Hk. rewrite Ek, nth_error_app2 by lia.
          now rewrite L1, Nat.add_comm, Nat.add_sub. }
        split.
        + intros i x Hx. rewrite Ek in Hx. destruct (Nat.lt_ge_cases i n1) as [I|I].
          * rewrite F2 by lia. apply A1. now rewrite nth_error_app1 in Hx by lia.
          * rewrite nth_error_app2 in Hx by lia. rewrite L1 in Hx. specialize (A2 _ _ Hx).
            now replace (a + n1 + (i - n1))%nat with (a + i)%nat in A2 by lia.
        + intros c Hc. rewrite F2 by lia. apply F1. lia. }
    repeat match goal with |- _ /\ _ => split end.
    1-5: intros k K Ap Hk; apply assign_holds; assumption.
    - intros k K Ap Hk. apply (TR 4%nat 2%nat k); auto; lia.
    - intros k K Ap Hk. apply (TR 9%nat 3%nat k); auto; lia.
    - intro i. unfold v2_assign, v3_assign, m2_assign, q_assign, m3_assign, t2_assign, t3_assign, assign. rewrite Nat.eqb_refl. tauto.
  Qed.

  (** C95: setOrigin and setBasis replace one part of a transform and keep the other, also for arguments that are that part *)
  Theorem C95_parts (m : nat -> T) (a b : nat) :
    (forall k, length k = 3%nat -> s_apart 3 (a + 9) b -> s_holds m b k ->
      s_holds (t3_setOrigin a b m) (a + 9) k /\ s_frame 3 (a + 9) m (t3_setOrigin a b m)) /\
    (forall k, length k = 9%nat -> s_apart 9 a b -> s_holds m b k ->
      s_holds (t3_setBasis a b m) a k /\ s_frame 9 a m (t3_setBasis a b m)) /\
    (forall k, length k = 2%nat -> s_apart 2 (a + 4) b -> s_holds m b k ->
      s_holds (t2_setOrigin a b m) (a + 4) k /\ s_frame 2 (a + 4) m (t2_setOrigin a b m)) /\
    (forall k, length k = 4%nat -> s_apart 4 a b -> s_holds m b k ->
      s_holds (t2_setBasis a b m) a k /\ s_frame 4 a m (t2_setBasis a b m)).
  Proof. repeat split; intros; try (now apply assign_holds); apply assign_holds with (k := k); assumption. Qed.

  (** ** element access *)
  (** C95: v[i] reads and writes component i and only that; an index beyond the last component is undefined behaviour *)
  Theorem C95_subscript (m : nat -> T) (n a : nat) (l : list T) (i : N) :
    length l = n -> s_holds m a l ->
    match nth_error l (N.to_nat i) with
    | Some x => at_read n a i m = Ret x /\
        forall y, exists m', at_write n a i y m = Ret m' /\ m' (a + N.to_nat i)%nat = y /\ forall k, k <> (a + N.to_nat i)%nat -> m' k = m k
    | None => at_read n a i m = UB /\ forall y, at_write n a i y m = UB
    end.
  Proof.
    intros L H. destruct (nth_error l (N.to_nat i)) as [x|] eqn:E.
    - assert (N.to_nat i < n)%nat as I by (rewrite <- L; apply nth_error_Some; congruence).
      unfold at_read, at_write. replace (N.ltb i (N.of_nat n)) with true by (symmetry; apply N.ltb_lt; lia).
      split; [now rewrite (H _ _ E)|]. intro y. eexists. split; [reflexivity|]. split; [apply st_same|]. intros k Hk. now apply st_other.
    - apply nth_error_None in E. unfold at_read, at_write.
      replace (N.ltb i (N.of_nat n)) with false by (symmetry; apply N.ltb_ge; lia). auto.
  Qed.

  (** C95: the elements of a 2x2 matrix: m(i, j) is row i, column j, and assigning one leaves the other three *)
  Theorem C95_element2 (m : nat -> T) (a : nat) (xx xy yx yy : T) : s_holds m a [xx; xy; yx; yy] ->
    forall i j : nat, (i < 2)%nat -> (j < 2)%nat ->
    exists e, m2_elem a (Z.of_nat i) (Z.of_nat j) m = Ret e /\ nth_error (nth i [[xx; xy]; [yx; yy]] []) j = Some e /\
      (forall y, exists m', m2_set a (Z.of_nat i) (Z.of_nat j) y m = Ret m' /\ m2_elem a (Z.of_nat i) (Z.of_nat j) m' = Ret y /\
        s_frame 4 a m m' /\ forall p q : nat, (p < 2)%nat -> (q < 2)%nat -> (p <> i \/ q <> j) ->
        m2_elem a (Z.of_nat p) (Z.of_nat q) m' = m2_elem a (Z.of_nat p) (Z.of_nat q) m).
  Proof.
    intros H i j Hi Hj.
    assert (G : forall k x, nth_error [xx; xy; yx; yy] k = Some x -> m (a + k)%nat = x) by (intros k x E; exact (H _ _ E)).
    assert (IN : forall p q, (p < 2)%nat -> (q < 2)%nat -> (0 <=? Z.of_nat p * 2 + Z.of_nat q)%Z = true /\ (Z.of_nat p * 2 + Z.of_nat q <? Z.of_nat 4)%Z = true)
      by (intros; split; [apply Z.leb_le|apply Z.ltb_lt]; lia).
    destruct (IN i j Hi Hj) as [I1 I2]. unfold m2_elem, m2_set, zread, zwrite. rewrite I1, I2. cbn [andb].
    exists (m (a + Z.to_nat (Z.of_nat i * 2 + Z.of_nat j))%nat). split; [reflexivity|]. split.
    - destruct i as [|[|i]]; [..|lia]; (destruct j as [|[|j]]; [..|lia]); cbn -[Nat.add].
      + f_equal. symmetry. now apply (G 0%nat).
      + f_equal. symmetry. now apply (G 1%nat).
      + f_equal. symmetry. now apply (G 2%nat).
      + f_equal. symmetry. now apply (G 3%nat).
    - intro y. eexists. split; [reflexivity|]. split; [now rewrite st_same|]. split; [intros k Hk; apply st_other; lia|].
      intros p q Hp Hq D. destruct (IN p q Hp Hq) as [J1 J2]. rewrite J1, J2. cbn [andb]. rewrite st_other by lia. reflexivity.
  Qed.

  (** C95: m(i, j) is component j of getRow(i) and component i of getColumn(j) *)
  Theorem C95_element (m : nat -> T) (a : nat) (xx xy xz yx yy yz zx zy zz : T) :
    s_holds m a [xx; xy; xz; yx; yy; yz; zx; zy; zz] ->
    forall i j : nat, (i < 3)%nat -> (j < 3)%nat ->
    exists r c e, m3_row a (Z.of_nat i) m = Ret r /\ m3_col a (Z.of_nat j) m = Ret c /\ m3_elem a (Z.of_nat i) (Z.of_nat j) m = Ret e /\
      nth_error [vx r; vy r; vz r] j = Some e /\ nth_error [vx c; vy c; vz c] i = Some e /\
      nth_error (nth i [[xx; xy; xz]; [yx; yy; yz]; [zx; zy; zz]] []) j = Some e /\
      (forall y, exists m', m3_set a (Z.of_nat i) (Z.of_nat j) y m = Ret m' /\ m3_elem a (Z.of_nat i) (Z.of_nat j) m' = Ret y /\
        s_frame 9 a m m' /\ forall p q : nat, (p < 3)%nat -> (q < 3)%nat -> (p <> i \/ q <> j) ->
        m3_elem a (Z.of_nat p) (Z.of_nat q) m' = m3_elem a (Z.of_nat p) (Z.of_nat q) m).
  Proof.
    intros H i j Hi Hj.
    assert (G : forall k x, nth_error [xx; xy; xz; yx; yy; yz; zx; zy; zz] k = Some x -> zread 9 a (Z.of_nat k) m = Ret x).
    { intros k x E. unfold zread. assert (k < 9)%nat by (apply (proj1 (nth_error_Some [xx; xy; xz; yx; yy; yz; zx; zy; zz] k)); congruence).
      replace (0 <=? Z.of_nat k)%Z with true by (symmetry; apply Z.leb_le; lia).
      replace (Z.of_nat k <? Z.of_nat 9)%Z with true by (symmetry; apply Z.ltb_lt; lia). cbn [andb].
      rewrite Nat2Z.id. now rewrite (H _ _ E). }
    pose proof (G 0%nat _ eq_refl) as G0. pose proof (G 1%nat _ eq_refl) as G1. pose proof (G 2%nat _ eq_refl) as G2.
    pose proof (G 3%nat _ eq_refl) as G3. pose proof (G 4%nat _ eq_refl) as G4. pose proof (G 5%nat _ eq_refl) as G5.
    pose proof (G 6%nat _ eq_refl) as G6. pose proof (G 7%nat _ eq_refl) as G7. pose proof (G 8%nat _ eq_refl) as G8.
    assert (W : forall y, exists m', m3_set a (Z.of_nat i) (Z.of_nat j) y m = Ret m' /\ m3_elem a (Z.of_nat i) (Z.of_nat j) m' = Ret y /\
        s_frame 9 a m m' /\ forall p q : nat, (p < 3)%nat -> (q < 3)%nat -> (p <> i \/ q <> j) ->
        m3_elem a (Z.of_nat p) (Z.of_nat q) m' = m3_elem a (Z.of_nat p) (Z.of_nat q) m).
    { intro y. exists (st m (a + Z.to_nat (Z.of_nat i * 3 + Z.of_nat j)) y). unfold m3_set, m3_elem, zread, zwrite.
      replace (0 <=? Z.of_nat i * 3 + Z.of_nat j)%Z with true by (symmetry; apply Z.leb_le; lia).
      replace (Z.of_nat i * 3 + Z.of_nat j <? Z.of_nat 9)%Z with true by (symmetry; apply Z.ltb_lt; lia). cbn [andb].
      split; [reflexivity|]. split; [now rewrite st_same|]. split.
      - intros k Hk. apply st_other. lia.
      - intros p q Hp Hq D.
        replace (0 <=? Z.of_nat p * 3 + Z.of_nat q)%Z with true by (symmetry; apply Z.leb_le; lia).
        replace (Z.of_nat p * 3 + Z.of_nat q <? Z.of_nat 9)%Z with true by (symmetry; apply Z.ltb_lt; lia). cbn [andb].
        rewrite st_other by lia. reflexivity. }
    assert (V : exists r c e, m3_row a (Z.of_nat i) m = Ret r /\ m3_col a (Z.of_nat j) m = Ret c /\ m3_elem a (Z.of_nat i) (Z.of_nat j) m = Ret e /\
      nth_error [vx r; vy r; vz r] j = Some e /\ nth_error [vx c; vy c; vz c] i = Some e /\
      nth_error (nth i [[xx; xy; xz]; [yx; yy; yz]; [zx; zy; zz]] []) j = Some e).
    { clear W. unfold m3_row, m3_col, m3_elem.
      destruct i as [|[|[|i]]]; [| | |lia]; (destruct j as [|[|[|j]]]; [| | |lia]);
        cbn -[zread] in G0, G1, G2, G3, G4, G5, G6, G7, G8 |- *; rewrite ?G0, ?G1, ?G2, ?G3, ?G4, ?G5, ?G6, ?G7, ?G8; cbn -[zread];
        do 3 eexists; repeat (split; [reflexivity|]); reflexivity. }
    destruct V as (r & c & e & V1 & V2 & V3' & V4 & V5 & V6). exists r, c, e. repeat (split; [assumption|]). exact W.
  Qed.

  (** C95: outside the matrix an element access is undefined behaviour only beyond the array: m(0, 3) is silently m(1, 0) *)
  Theorem C95_element_out (m : nat -> T) (a : nat) (i j : Z) :
    (m3_elem a i j m = UB <-> (i * 3 + j < 0 \/ 9 <= i * 3 + j)%Z) /\
    (m2_elem a i j m = UB <-> (i * 2 + j < 0 \/ 4 <= i * 2 + j)%Z) /\
    m3_elem a i 3 m = m3_elem a (i + 1) 0 m /\ m2_elem a i 2 m = m2_elem a (i + 1) 0 m /\
    (m3_row a i m = UB <-> (i < 0 \/ 3 <= i)%Z) /\ (m3_col a i m = UB <-> (i < 0 \/ 3 <= i)%Z).
  Proof.
    assert (R : forall n k, (exists x, zread n a k m = Ret x /\ (0 <= k < Z.of_nat n)%Z) \/ (zread n a k m = UB /\ (k < 0 \/ Z.of_nat n <= k)%Z)).
    { intros n k. unfold zread. destruct (Z.leb_spec 0 k), (Z.ltb_spec k (Z.of_nat n)); cbn; eauto; right; split; auto; lia. }
    unfold m3_elem, m2_elem, m3_row, m3_col.
    split; [|split; [|split; [|split; [|split]]]].
    - destruct (R 9%nat (i * 3 + j)%Z) as [(x & E & B)|(E & B)]; rewrite E; split; intro; (discriminate || lia || reflexivity).
    - destruct (R 4%nat (i * 2 + j)%Z) as [(x & E & B)|(E & B)]; rewrite E; split; intro; (discriminate || lia || reflexivity).
    - f_equal. lia.
    - f_equal. lia.
    - destruct (R 9%nat (i * 3)%Z) as [(x & E & B)|(E & B)]; rewrite E; cbn; [|split; intro; (lia || reflexivity)].
      destruct (R 9%nat (i * 3 + 1)%Z) as [(x1 & E1 & B1)|(E1 & B1)]; rewrite E1; cbn; [|split; intro; (lia || reflexivity)].
      destruct (R 9%nat (i * 3 + 2)%Z) as [(x2 & E2 & B2)|(E2 & B2)]; rewrite E2; cbn; split; intro; (discriminate || lia || reflexivity).
    - destruct (R 9%nat i%Z) as [(x & E & B)|(E & B)]; rewrite E; cbn [obind]; [|split; intro; (lia || reflexivity)].
      destruct (R 9%nat (3 + i)%Z) as [(x1 & E1 & B1)|(E1 & B1)]; rewrite E1; cbn [obind]; [|split; intro; (lia || reflexivity)].
      destruct (R 9%nat (6 + i)%Z) as [(x2 & E2 & B2)|(E2 & B2)]; rewrite E2; cbn [obind]; split; intro; (discriminate || lia || reflexivity).
  Qed.
End Compound.

(** ** comparisons *)
Lemma neqb_refl_F (x : F64) : neqb x x = negb (is_nan x).
Proof.
  cbn. unfold Beqb, SpecFloat.SFeqb. destruct x as [s|s| |s e1 e2 H]; try reflexivity; try (destruct s; reflexivity).
  cbn. destruct s; rewrite Z.compare_refl, Pos.compare_cont_refl; reflexivity.
Qed.

(** C95: comparing a copy with the original gives true exactly if the original contains no NaN *)
Theorem C95_copy_double (m : nat -> F64) (a b : nat) :
  (s_apart 2 a b -> v2eqb (ld2 (v2_assign b a m) b) (ld2 m a) = forallb (fun i => negb (is_nan (m (a + i)%nat))) (seq 0 2)) /\
  (s_apart 3 a b -> veqb (ld3 (v3_assign b a m) b) (ld3 m a) = forallb (fun i => negb (is_nan (m (a + i)%nat))) (seq 0 3)) /\
  (s_apart 4 a b -> qeqb (ldq (q_assign b a m) b) (ldq m a) = forallb (fun i => negb (is_nan (m (a + i)%nat))) (seq 0 4)) /\
  (s_apart 4 a b -> m2eqb (ldm2 (m2_assign b a m) b) (ldm2 m a) = forallb (fun i => negb (is_nan (m (a + i)%nat))) (seq 0 4)) /\
  (s_apart 9 a b -> m3eqb (ldm3 (m3_assign b a m) b) (ldm3 m a) = forallb (fun i => negb (is_nan (m (a + i)%nat))) (seq 0 9)) /\
  (s_apart 12 a b -> teqb (ldt3 (t3_assign b a m) b) (ldt3 m a) = forallb (fun i => negb (is_nan (m (a + i)%nat))) (seq 0 12)).
Proof.
  assert (SY : forall n, s_apart n a b -> s_apart n b a) by (intros n H; unfold s_apart in *; lia).
  assert (H0 : forall n, s_holds m a (map (fun i => m (a + i)%nat) (seq 0 n))).
  { intros n i x E. rewrite nth_error_map in E. destruct (nth_error (seq 0 n) i) as [j|] eqn:J; [|discriminate].
    cbn in E. injection E as <-. f_equal. f_equal.
    assert (i < n)%nat by (rewrite <- (seq_length n 0); apply nth_error_Some; congruence).
    apply nth_error_nth with (d := 0%nat) in J. rewrite seq_nth in J by lia. lia. }
  pose proof (C95_assign m b a) as (A2 & A3 & AM2 & AQ & AM3 & _ & AT3 & _).
  repeat match goal with |- _ /\ _ => split end; intro Ap; apply SY in Ap.
  - destruct (A2 _ (eq_refl : length (map _ (seq 0 2)) = 2%nat) Ap (H0 2%nat)) as [E _].
    unfold ld2, v2eqb. cbn [v2x v2y forallb seq]. 
    pose proof (E 0%nat _ eq_refl) as E0. rewrite !Nat.add_0_r in E0.
    rewrite E0, (E 1%nat _ eq_refl), !neqb_refl_F, !Nat.add_0_r, !andb_true_r. reflexivity.
  - destruct (A3 _ (eq_refl : length (map _ (seq 0 3)) = 3%nat) Ap (H0 3%nat)) as [E _].
    unfold ld3, veqb. cbn [vx vy vz forallb seq].
    pose proof (E 0%nat _ eq_refl) as E0. rewrite !Nat.add_0_r in E0.
    rewrite E0, (E 1%nat _ eq_refl), (E 2%nat _ eq_refl), !neqb_refl_F, !Nat.add_0_r, !andb_true_r, <- !andb_assoc. reflexivity.
  - destruct (AQ _ (eq_refl : length (map _ (seq 0 4)) = 4%nat) Ap (H0 4%nat)) as [E _].
    unfold ldq, qeqb. cbn [qx qy qz qw forallb seq].
    pose proof (E 0%nat _ eq_refl) as E0. rewrite !Nat.add_0_r in E0.
    rewrite E0, (E 1%nat _ eq_refl), (E 2%nat _ eq_refl), (E 3%nat _ eq_refl), !neqb_refl_F, !Nat.add_0_r, !andb_true_r, <- !andb_assoc. reflexivity.
  - destruct (AM2 _ (eq_refl : length (map _ (seq 0 4)) = 4%nat) Ap (H0 4%nat)) as [E _].
    unfold ldm2, m2eqb. cbn [m2xx m2xy m2yx m2yy forallb seq].
    pose proof (E 0%nat _ eq_refl) as E0. rewrite !Nat.add_0_r in E0.
    rewrite E0, (E 1%nat _ eq_refl), (E 2%nat _ eq_refl), (E 3%nat _ eq_refl), !neqb_refl_F, !Nat.add_0_r, !andb_true_r, <- !andb_assoc. reflexivity.
  - destruct (AM3 _ (eq_refl : length (map _ (seq 0 9)) = 9%nat) Ap (H0 9%nat)) as [E _].
    unfold ldm3, m3eqb. cbn [mxx mxy mxz myx myy myz mzx mzy mzz forallb seq].
    pose proof (E 0%nat _ eq_refl) as E0. rewrite !Nat.add_0_r in E0.
    rewrite E0, (E 1%nat _ eq_refl), (E 2%nat _ eq_refl), (E 3%nat _ eq_refl), (E 4%nat _ eq_refl), (E 5%nat _ eq_refl), (E 6%nat _ eq_refl),
      (E 7%nat _ eq_refl), (E 8%nat _ eq_refl), !neqb_refl_F, !Nat.add_0_r, !andb_true_r, <- !andb_assoc. reflexivity.
  - destruct (AT3 _ (eq_refl : length (map _ (seq 0 12)) = 12%nat) Ap (H0 12%nat)) as [E _].
    unfold ldt3, teqb, ldm3, m3eqb, ld3, veqb. cbn [MathTypes.tR MathTypes.tt mxx mxy mxz myx myy myz mzx mzy mzz vx vy vz forallb seq].
    pose proof (E 0%nat _ eq_refl) as E0. rewrite !Nat.add_0_r in E0.
    pose proof (E 10%nat _ eq_refl) as E10. pose proof (E 11%nat _ eq_refl) as E11.
    replace (b + 9 + 1)%nat with (b + 10)%nat by lia. replace (b + 9 + 2)%nat with (b + 11)%nat by lia.
    replace (a + 9 + 1)%nat with (a + 10)%nat by lia. replace (a + 9 + 2)%nat with (a + 11)%nat by lia.
    rewrite E10, E11.
    rewrite E0, (E 1%nat _ eq_refl), (E 2%nat _ eq_refl), (E 3%nat _ eq_refl), (E 4%nat _ eq_refl), (E 5%nat _ eq_refl), (E 6%nat _ eq_refl),
      (E 7%nat _ eq_refl), (E 8%nat _ eq_refl), (E 9%nat _ eq_refl), !neqb_refl_F, !Nat.add_0_r, !andb_true_r, <- !andb_assoc. reflexivity.
Qed.

(** C95: with real numbers == holds exactly for equal objects *)
Lemma neqb_R (x y : R) : neqb x y = true <-> x = y.
Proof. cbn. unfold Reqb. destruct (Req_EM_T x y) as [H|H]; split; intro G; (exact H || reflexivity || discriminate || contradiction). Qed.

Theorem C95_equal_real :
  (forall a b : vec2 R, v2eqb a b = true <-> a = b) /\ (forall a b : vec3 R, veqb a b = true <-> a = b) /\
  (forall a b : quat R, qeqb a b = true <-> a = b) /\ (forall a b : mat2 R, m2eqb a b = true <-> a = b) /\
  (forall a b : mat3 R, m3eqb a b = true <-> a = b) /\ (forall a b : trans3 R, teqb a b = true <-> a = b).
Proof.
  assert (V3E : forall a b : vec3 R, veqb a b = true <-> a = b).
  { intros [a0 a1 a2] [b0 b1 b2]. unfold veqb. cbn [vx vy vz]. rewrite !andb_true_iff, !neqb_R.
    split; [intros H; f_equal; tauto|intro H; injection H; tauto]. }
  assert (M3E : forall a b : mat3 R, m3eqb a b = true <-> a = b).
  { intros [a0 a1 a2 a3 a4 a5 a6 a7 a8] [b0 b1 b2 b3 b4 b5 b6 b7 b8]. unfold m3eqb. cbn [mxx mxy mxz myx myy myz mzx mzy mzz].
    rewrite !andb_true_iff, !neqb_R. split; [intros H; f_equal; tauto|intro H; injection H; tauto]. }
  repeat match goal with |- _ /\ _ => split end; auto.
  - intros [a0 a1] [b0 b1]. unfold v2eqb. cbn [v2x v2y]. rewrite !andb_true_iff, !neqb_R.
    split; [intros H; f_equal; tauto|intro H; injection H; tauto].
  - intros [a0 a1 a2 a3] [b0 b1 b2 b3]. unfold qeqb. cbn [qx qy qz qw]. rewrite !andb_true_iff, !neqb_R.
    split; [intros H; f_equal; tauto|intro H; injection H; tauto].
  - intros [a0 a1 a2 a3] [b0 b1 b2 b3]. unfold m2eqb. cbn [m2xx m2xy m2yx m2yy]. rewrite !andb_true_iff, !neqb_R.
    split; [intros H; f_equal; tauto|intro H; injection H; tauto].
  - intros [aR at'] [bR bt]. unfold teqb. cbn [MathTypes.tR MathTypes.tt]. rewrite andb_true_iff, V3E, M3E.
    split; [intros [-> ->]; reflexivity|intro H; injection H; tauto].
Qed.

(** ** matrices act linearly, entry by entry operations act on the images *)
Theorem C95_matrix (A B : mat3 R) (v : vec3 R) (s : R) :
  m3mulv (m3add A B) v = vadd (m3mulv A v) (m3mulv B v) /\ m3mulv (m3sub A B) v = vsub (m3mulv A v) (m3mulv B v) /\
  m3mulv (m3scale A s) v = vscale (m3mulv A v) s /\ (s <> 0%R -> m3mulv (m3divs A s) v = vdivs (m3mulv A v) s) /\
  m3add (m3sub A B) B = A /\ (s <> 0%R -> m3scale (m3divs A s) s = A).
Proof.
  destruct A, B, v. unfold m3mulv, m3add, m3sub, m3scale, m3divs, vadd, vsub, vscale, vdivs.
  cbn. repeat split; intros; f_equal; try ring; field; assumption.
Qed.

Theorem C95_matrix2 (A B : mat2 R) (v : vec2 R) (s : R) :
  m2mulv (m2add A B) v = v2add (m2mulv A v) (m2mulv B v) /\ m2mulv (m2sub A B) v = v2sub (m2mulv A v) (m2mulv B v) /\
  m2mulv (m2scale A s) v = v2scale (m2mulv A v) s /\ (s <> 0%R -> m2mulv (m2divs A s) v = v2divs (m2mulv A v) s) /\
  m2add (m2sub A B) B = A /\ (s <> 0%R -> m2scale (m2divs A s) s = A).
Proof.
  destruct A, B, v. unfold m2mulv, m2add, m2sub, m2scale, m2divs, v2add, v2sub, v2scale, v2divs.
  cbn. repeat split; intros; f_equal; try ring; field; assumption.
Qed.

(** C95: normalized() of a quaternion other than zero has length one, is a positive multiple of it and stands for the same rotation *)
Theorem C95_normalized (q : quat R) : qdot q q <> 0%R ->
  qdot (qnormalized q) (qnormalized q) = 1%R /\ (exists s, (0 < s)%R /\ q = qscale (qnormalized q) s /\ (s * s = qdot q q)%R) /\
  m3setRotation (qnormalized q) = m3setRotation q /\ qnormalized (qnormalized q) = qnormalized q.
Proof.
  intro N. assert (L : qlength q = sqrt (qdot q q)) by (destruct q; reflexivity).
  assert (P : (0 < qdot q q)%R).
  { destruct q as [x y z w]. unfold qdot in *. cbn in *. pose proof (Rle_0_sqr x). pose proof (Rle_0_sqr y). pose proof (Rle_0_sqr z). pose proof (Rle_0_sqr w). unfold Rsqr in *. lra. }
  pose proof (sqrt_lt_R0 _ P) as S. assert (SS : (sqrt (qdot q q) * sqrt (qdot q q) = qdot q q)%R) by (apply sqrt_sqrt; lra).
  set (s := sqrt (qdot q q)) in *. 
  assert (E : forall r t : quat R, qdot r r = 1%R -> (qlength r = 1%R) /\ qnormalized r = r).
  { intros r _ H. assert (QL : qlength r = 1%R) by (transitivity (sqrt (qdot r r)); [destruct r; reflexivity|rewrite H; apply sqrt_1]). split; auto.
    unfold qnormalized. rewrite QL. destruct r. cbn. f_equal; field. }
  assert (U : qdot (qnormalized q) (qnormalized q) = 1%R).
  { unfold qnormalized. rewrite L. unfold qdot in *. cbn in *. destruct q as [x y z w]. cbn in *.
    replace (x / s * (x / s) + y / s * (y / s) + z / s * (z / s) + w / s * (w / s))%R with ((x * x + y * y + z * z + w * w) / (s * s))%R by (field; lra). rewrite SS. field. lra. }
  split; [exact U|]. split; [exists s; split; [exact S|]; split; [|exact SS]|split; [|apply (E _ q U)]].
  - unfold qnormalized. rewrite L. destruct q as [x y z w]. cbn in *. unfold qscale. cbn. f_equal; field; lra.
  - unfold m3setRotation. assert (Q1 : qlength2 (qnormalized q) = 1%R) by (rewrite <- U; destruct (qnormalized q); reflexivity).
    assert (Q2 : qlength2 q = (s * s)%R) by (rewrite SS; destruct q; reflexivity). rewrite Q1, Q2. unfold qnormalized. rewrite L.
    destruct q as [x y z w]. clear - S. cbn in *. clearbody s. f_equal; unfold Rdiv; field; lra.
Qed.

(** C95: quaternions add, subtract and scale component by component; dot is the sum of the products *)
Theorem C95_quaternion (p q r : quat R) (s : R) :
  qadd (qsub p q) q = p /\ qdot (qadd p q) r = (qdot p r + qdot q r)%R /\ qdot (qsub p q) r = (qdot p r - qdot q r)%R /\
  qdot (qscale p s) q = (s * qdot p q)%R /\ qdot p q = qdot q p /\
  qdot p p = (qx p * qx p + qy p * qy p + qz p * qz p + qw p * qw p)%R /\
  (qdot p p = 0%R -> p = Q 0%R 0%R 0%R 0%R).
Proof.
  destruct p as [px py pz pw], q as [ax ay az aw], r as [bx by' bz bw]. unfold qadd, qsub, qscale, qdot. cbn.
  repeat split; try ring; try (f_equal; ring).
  intro H. assert (px = 0 /\ py = 0 /\ pz = 0 /\ pw = 0)%R as (-> & -> & -> & ->).
  { pose proof (Rle_0_sqr px). pose proof (Rle_0_sqr py). pose proof (Rle_0_sqr pz). pose proof (Rle_0_sqr pw). unfold Rsqr in *.
    repeat split; apply Rsqr_0_uniq; unfold Rsqr; lra. }
  reflexivity.
Qed.

(** ** the hypotheses are met *)
(** a memory with the vector (1, 2, 3) at 0, (4, 5, 6) at 3 *)
Definition ex_mem : nat -> F64 := fun k => nofZ (Z.of_nat k + 1).

Definition ex_is (f : nat -> F64) (l : list Z) : bool :=
  forallb (fun kz => neqb (f (fst kz)) (nofZ (snd kz))) (combine (seq 0 (length l)) l).

Example C95_ex_add : ex_is (v3_addeq 0 3 ex_mem) [5; 7; 9; 4; 5; 6; 7]%Z = true.
Proof. vm_compute. reflexivity. Qed.
(** v -= v and v *= v.y *)
Example C95_ex_self : ex_is (v3_subeq 0 0 ex_mem) [0; 0; 0; 4]%Z = true.
Proof. vm_compute. reflexivity. Qed.
Example C95_ex_scalar : ex_is (v3_muls 0 (ex_mem 1%nat) ex_mem) [2; 4; 6; 4]%Z = true.
Proof. vm_compute. reflexivity. Qed.
Example C95_ex_assign : ex_is (t3_assign 0 12 ex_mem) [13; 14; 15; 16; 17; 18; 19; 20; 21; 22; 23; 24; 13; 14; 15; 16; 17; 18; 19; 20; 21; 22; 23; 24; 25]%Z = true.
Proof. vm_compute. reflexivity. Qed.
Example C95_ex_holds : s_apart 3 0 3 /\ s_holds ex_mem 0 [ex_mem 0; ex_mem 1; ex_mem 2]%nat /\ s_holds ex_mem 3 [ex_mem 3; ex_mem 4; ex_mem 5]%nat.
Proof.
  split; [right; left; lia|]. split; intros [|[|[|i]]] x E; cbn [nth_error] in E;
    try (destruct i; discriminate); injection E as E; rewrite <- E; reflexivity.
Qed.
(** a copy of a vector with a NaN compares unequal to the original, 0 == -0 *)
Example C95_ex_nan : veqb (V3 (nofZ 1) (nofZ 2) (ndiv (nofZ 0) (nofZ 0))) (V3 (nofZ 1) (nofZ 2) (ndiv (nofZ 0) (nofZ 0)) : vec3 F64) = false.
Proof. vm_compute. reflexivity. Qed.
Example C95_ex_zero : v2eqb (V2 (nofZ 0) (nofZ 1)) (V2 (nopp (nofZ 0)) (nofZ 1) : vec2 F64) = true.
Proof. vm_compute. reflexivity. Qed.
Example C95_ex_elem : m3_elem 0 1 0 ex_mem = Ret (ex_mem 3%nat) /\ m3_elem 0 0 3 ex_mem = Ret (ex_mem 3%nat) /\ m3_elem 0 2 3 ex_mem = UB /\
  m3_row 0 1 ex_mem = Ret (V3 (ex_mem 3%nat) (ex_mem 4%nat) (ex_mem 5%nat)) /\ m3_col 0 1 ex_mem = Ret (V3 (ex_mem 1%nat) (ex_mem 4%nat) (ex_mem 7%nat)).
Proof. repeat split. Qed.

Print Assumptions C95_compound3.
Print Assumptions C95_compound2.
Print Assumptions C95_scalar.
Print Assumptions C95_assign.
Print Assumptions C95_parts.
Print Assumptions C95_subscript.
Print Assumptions C95_element.
Print Assumptions C95_element_out.
Print Assumptions C95_copy_double.
Print Assumptions C95_equal_real.
Print Assumptions C95_matrix.
Print Assumptions C95_matrix2.
Print Assumptions C95_quaternion.
Print Assumptions C95_element2.
Print Assumptions C95_normalized.
