(** * Octree nodes in memory: representation of a tree value, frame and refinement lemmas *)
From Coq Require Import ZArith NArith List Bool Lia.
From Verif Require Import Num MathTypes Outcome Mesh Box Octree HeightMap Own.
Import ListNotations.

Section HeapLemmas.
  Context {A : Type}.
  Implicit Types (h : heap A) (a b : nat) (c : A).
  Lemma live_lt : forall h a c, live h a = Some c -> (a < length h)%nat.
  Proof. intros h a c H. unfold live in H. apply nth_error_Some. destruct (nth_error h a); congruence. Qed.
  Lemma live_end : forall h a, (length h <= a)%nat -> live h a = None.
  Proof. intros h a H. unfold live. apply nth_error_None in H. now rewrite H. Qed.
  Lemma upd_len : forall h a x, length (upd h a x) = length h.
  Proof. induction h as [|y h IH]; intros [|a] x; cbn; auto. Qed.
  Lemma upd_eq : forall h a x, (a < length h)%nat -> live (upd h a x) a = x.
  Proof.
    unfold live. induction h as [|y h IH]; intros [|a] x L; cbn in *; try lia.
    - destruct x; auto.
    - apply IH. lia.
  Qed.
  Lemma upd_ne : forall h a b x, a <> b -> live (upd h a x) b = live h b.
  Proof.
    unfold live. induction h as [|y h IH]; intros [|a] [|b] x N; cbn; auto; try lia.
  Qed.
  Lemma rd_live : forall h a c, live h a = Some c -> rd h a = Ret c.
  Proof. intros. unfold rd. now rewrite H. Qed.
  Lemma wr_live : forall h a c c', live h a = Some c -> wr h a c' = Ret (upd h a (Some c')).
  Proof. intros. unfold wr. now rewrite (rd_live _ _ _ H). Qed.
  Lemma free_live : forall h a c, live h a = Some c -> free h a = Ret (upd h a None).
  Proof. intros. unfold free. now rewrite (rd_live _ _ _ H). Qed.
  Lemma app_live_old : forall h x a, (a < length h)%nat -> live (h ++ [x]) a = live h a.
  Proof. intros. unfold live. now rewrite nth_error_app1. Qed.
  Lemma app_live_new : forall h x, live (h ++ [x]) (length h) = x.
  Proof. intros. unfold live. rewrite nth_error_app2, Nat.sub_diag by lia. destruct x; auto. Qed.
  Lemma app_len : forall h (x : option A), length (h ++ [x]) = S (length h).
  Proof. intros. rewrite app_length. cbn. lia. Qed.
End HeapLemmas.

Lemma ofold_app : forall A S (f : S -> A -> outcome S) l1 l2 s,
  ofold f (l1 ++ l2) s = let* s' := ofold f l1 s in ofold f l2 s'.
Proof. induction l1 as [|a l1 IH]; intros; cbn; auto. destruct (f s a); cbn; auto. Qed.

Lemma idx_eqb_spec : forall i j, idx_eqb i j = true <-> i = j.
Proof. intros [[[] []] []] [[[] []] []]; cbn; split; intros; congruence. Qed.
Lemma idx_eqb_refl : forall i, idx_eqb i i = true.
Proof. intros. now apply idx_eqb_spec. Qed.
Lemma idx_eqb_ne : forall i j, i <> j -> idx_eqb i j = false.
Proof. intros i j N. destruct (idx_eqb i j) eqn:E; auto. apply idx_eqb_spec in E. contradiction. Qed.
Lemma idx_dec : forall i j : idx, {i = j} + {i <> j}.
Proof. intros i j. destruct (idx_eqb i j) eqn:E; [left; now apply idx_eqb_spec|right]. intros ->. rewrite idx_eqb_refl in E. discriminate. Qed.
Lemma idx8_all : forall i, In i idx8.
Proof. intros [[[] []] []]; cbn; tauto. Qed.
Lemma put_eq : forall B (f : idx -> B) i v, put f i v i = v.
Proof. intros. unfold put. now rewrite idx_eqb_refl. Qed.
Lemma put_ne : forall B (f : idx -> B) i j v, i <> j -> put f i v j = f j.
Proof. intros. unfold put. now rewrite idx_eqb_ne. Qed.

Section Rep.
  Context {T : Type} {NT : Num T}.
  Definition at3 (ch : bool -> bool -> bool -> node T) (i : idx) : node T := let '(x, y, z) := i in ch x y z.
  Lemma at3_set : forall ch x y z n i, at3 (set_ch ch x y z n) i = if idx_eqb (x, y, z) i then n else at3 ch i.
  Proof. intros ch x y z n [[a b] c]. reflexivity. Qed.
  Fixpoint depth (n : node T) : nat :=
    match n with
    | Null => 0
    | Node _ _ _ ch => S (fold_right (fun '(x, y, z) m => Nat.max (depth (ch x y z)) m) 0 idx8)%nat
    end.
  Lemma depth_kid : forall s sp o ch i, (depth (at3 ch i) < depth (Node s sp o ch))%nat.
  Proof. intros s sp o ch [[[] []] []]; cbn; lia. Qed.

  (** pointer p denotes the tree n, whose nodes are exactly the blocks in F, each used once, all with back pointer t *)
  Fixpoint rep (h : heap (cell T)) (t : nat) (p : option nat) (n : node T) (F : nat -> Prop) : Prop :=
    match n with
    | Null => p = None /\ forall a, ~ F a
    | Node s sp o ch => exists a kids Fs,
        p = Some a /\ live h a = Some (Cell s sp o kids t) /\
        (forall x y z, rep h t (kids (x, y, z)) (ch x y z) (Fs (x, y, z))) /\
        (forall i, ~ Fs i a) /\ (forall i j b, Fs i b -> Fs j b -> i = j) /\
        (forall b, F b <-> b = a \/ exists i : idx, Fs i b)
    end.
  Lemma rep_ext : forall h t p n F F', (forall a, F a <-> F' a) -> rep h t p n F -> rep h t p n F'.
  Proof.
    intros h t p [|s sp o ch] F F' E H; cbn [rep] in *.
    - destruct H as [H1 H2]. split; auto. intros a X. apply (H2 a), E, X.
    - destruct H as [a [kids [Fs [H1 [H2 [H3 [H4 [H5 H6]]]]]]]]. exists a, kids, Fs. repeat (split; auto).
      + intros X. apply H6, E, X.
      + intros X. apply E, H6, X.
  Qed.
  Lemma rep_frame : forall h h' t n p F, rep h t p n F -> (forall a, F a -> live h' a = live h a) -> rep h' t p n F.
  Proof.
    intros h h' t. induction n as [|s sp o ch IH]; intros p F H E; cbn [rep] in *; auto.
    destruct H as [a [kids [Fs [H1 [H2 [H3 [H4 [H5 H6]]]]]]]]. exists a, kids, Fs. split; auto. split.
    { rewrite E; auto. apply H6. auto. }
    split; [|auto]. intros x y z. apply IH; auto. intros b B. apply E, H6. eauto.
  Qed.
  Lemma rep_live : forall h t n p F a, rep h t p n F -> F a -> exists c, live h a = Some c /\ c_tree c = t.
  Proof.
    intros h t. induction n as [|s sp o ch IH]; intros p F b H X; cbn [rep] in *.
    - elim (proj2 H b X).
    - destruct H as [a [kids [Fs [H1 [H2 [H3 [H4 [H5 H6]]]]]]]]. apply H6 in X. destruct X as [-> |[[[x y] z] X]].
      + eexists. split; [exact H2|reflexivity].
      + eapply IH; [apply H3|exact X].
  Qed.
  Lemma rep_lt : forall h t n p F a, rep h t p n F -> F a -> (a < length h)%nat.
  Proof. intros h t n p F a H X. destruct (rep_live _ _ _ _ _ _ H X) as [c [L _]]. now apply live_lt in L. Qed.
  Lemma rep_root : forall h t p n F a, rep h t p n F -> p = Some a -> F a.
  Proof.
    intros h t p [|s sp o ch] F a H E; cbn [rep] in H.
    - destruct H. congruence.
    - destruct H as [a' [kids [Fs [H1 [H2 [H3 [H4 [H5 H6]]]]]]]]. apply H6. left. congruence.
  Qed.
  Lemma rep_null : forall h t n F, rep h t None n F -> n = Null.
  Proof. intros h t [|s sp o ch] F H; auto. destruct H as [a [kids [Fs [H1 _]]]]. discriminate. Qed.
  Lemma rep_some : forall h t n F a, rep h t (Some a) n F -> exists s sp o ch, n = Node s sp o ch.
  Proof. intros h t [|s sp o ch] F a H; [destruct H; discriminate|eauto]. Qed.
  (** look at one node *)
  Lemma rep_open : forall h t a s sp o ch F, rep h t (Some a) (Node s sp o ch) F -> exists kids Fs,
    live h a = Some (Cell s sp o kids t) /\ (forall i, rep h t (kids i) (at3 ch i) (Fs i)) /\
    (forall i, ~ Fs i a) /\ (forall i j b, Fs i b -> Fs j b -> i = j) /\ (forall b, F b <-> b = a \/ exists i, Fs i b).
  Proof.
    intros h t a s sp o ch F H. cbn [rep] in H. destruct H as [a' [kids [Fs [H1 [H2 [H3 [H4 [H5 H6]]]]]]]].
    injection H1 as <-. exists kids, Fs. repeat (split; auto). intros [[x y] z]. apply H3.
    all: apply H6.
  Qed.
  Lemma rep_close : forall h t a s sp o ch F kids Fs,
    live h a = Some (Cell s sp o kids t) -> (forall i, rep h t (kids i) (at3 ch i) (Fs i)) ->
    (forall i, ~ Fs i a) -> (forall i j b, Fs i b -> Fs j b -> i = j) -> (forall b, F b <-> b = a \/ exists i, Fs i b) ->
    rep h t (Some a) (Node s sp o ch) F.
  Proof.
    intros h t a s sp o ch F kids Fs H2 H3 H4 H5 H6. cbn [rep]. exists a, kids, Fs. repeat (split; auto).
    intros x y z. apply (H3 (x, y, z)). all: apply H6.
  Qed.
  (** a fresh leaf *)
  Lemma rep_leaf : forall h t s sp o, rep (h ++ [Some (Cell s sp o (fun _ => None) t)]) t (Some (length h)) (Node s sp o (fun _ _ _ => Null)) (fun b => b = length h).
  Proof.
    intros. eapply rep_close with (Fs := fun _ _ => False).
    - apply app_live_new.
    - intros [[x y] z]. cbn. auto.
    - auto.
    - contradiction.
    - intros b. split; auto. intros [E|[i []]]; auto.
  Qed.

  (** what an operation on the tree with blocks F may do to memory: only blocks of F and fresh blocks are touched, the new tree has
      blocks F', and every block of F and every fresh block is in F' or dead *)
  Definition trans (h : heap (cell T)) (F : nat -> Prop) (h' : heap (cell T)) (F' : nat -> Prop) : Prop :=
    (length h <= length h')%nat /\
    (forall b, (b < length h)%nat -> ~ F b -> live h' b = live h b) /\
    (forall b, F' b -> F b \/ (length h <= b)%nat) /\
    (forall b c, F b \/ (length h <= b)%nat -> live h' b = Some c -> F' b).
  Definition alive (h : heap (cell T)) (F : nat -> Prop) : Prop := forall b, F b -> exists c, live h b = Some c.
  Lemma rep_alive : forall h t p n F, rep h t p n F -> alive h F.
  Proof. intros h t p n F H b X. destruct (rep_live _ _ _ _ _ _ H X) as [c [L _]]. eauto. Qed.
  Lemma alive_lt : forall h F b, alive h F -> F b -> (b < length h)%nat.
  Proof. intros h F b A X. destruct (A b X) as [c L]. now apply live_lt in L. Qed.
  Lemma trans_refl : forall h F, alive h F -> trans h F h F.
  Proof.
    intros h F A. split; [lia|]. split; [auto|]. split; [auto|]. intros b c [X|X] L; auto. apply live_lt in L. lia.
  Qed.
  Lemma trans_trans : forall h F h1 F1 h2 F2, alive h1 F1 -> trans h F h1 F1 -> trans h1 F1 h2 F2 -> trans h F h2 F2.
  Proof.
    intros h F h1 F1 h2 F2 LV [A1 [B1 [C1 D1]]] [A2 [B2 [C2 D2]]]. split; [lia|]. split; [|split].
    - intros b L N. rewrite B2; [auto|lia|]. intros X. destruct (C1 b X); [contradiction|lia].
    - intros b X. destruct (C2 b X) as [Y|Y]; [destruct (C1 b Y); auto|right; lia].
    - intros b c X L. destruct (le_lt_dec (length h1) b) as [G|G]; [eapply D2; eauto|].
      destruct (live h1 b) as [c1|] eqn:E1.
      + eapply D2; eauto.
      + rewrite B2 in L; auto; [congruence|]. intros Y. destruct (LV b Y). congruence.
  Qed.
  Lemma trans_ext : forall h F h' F' G G', (forall b, F b <-> G b) -> (forall b, F' b <-> G' b) -> trans h F h' F' -> trans h G h' G'.
  Proof.
    intros h F h' F' G G' E E' [A [B [C D]]]. split; auto. split; [|split].
    - intros b L N. apply B; auto. intros X. apply N, E, X.
    - intros b X. apply E' in X. destruct (C b X); auto. left. now apply E.
    - intros b c X L. apply E'. apply (D b c); auto. destruct X; auto. left. now apply E.
  Qed.

  (** blocks of a tree whose child i was replaced *)
  Definition fp_sub (a : nat) (Fs : idx -> nat -> Prop) (i : idx) (Fi : nat -> Prop) : nat -> Prop :=
    fun b => b = a \/ (exists j, j <> i /\ Fs j b) \/ Fi b.
  Lemma rep_sub : forall h h' t a s sp o ch kids kids' Fs x y z n' Fi,
    (forall i, rep h t (kids i) (at3 ch i) (Fs i)) -> (forall i, ~ Fs i a) -> (forall i j b, Fs i b -> Fs j b -> i = j) ->
    live h' a = Some (Cell s sp o kids' t) -> (forall j, j <> (x, y, z) -> kids' j = kids j) -> rep h' t (kids' (x, y, z)) n' Fi ->
    (forall j b, j <> (x, y, z) -> Fs j b -> live h' b = live h b) ->
    ~ Fi a -> (forall j b, j <> (x, y, z) -> Fs j b -> ~ Fi b) ->
    rep h' t (Some a) (Node s sp o (set_ch ch x y z n')) (fp_sub a Fs (x, y, z) Fi).
  Proof.
    intros h h' t a s sp o ch kids kids' Fs x y z n' Fi R NA DJ L K RI FR NAI DI.
    set (i := (x, y, z)) in *.
    apply rep_close with (kids := kids') (Fs := fun j b => (j = i /\ Fi b) \/ (j <> i /\ Fs j b)); auto.
    - intros j. rewrite at3_set. fold i. destruct (idx_dec i j) as [E|E].
      + subst j. rewrite (idx_eqb_refl i). eapply rep_ext; [|exact RI]. intros b. tauto.
      + rewrite (idx_eqb_ne i j E), (K j) by auto. eapply rep_ext; [|eapply rep_frame; [apply R|]].
        * intros b. cbv beta. split; [intros X; right; split; auto|]. intros [[X _]|[_ X]]; [now elim E|auto].
        * intros b B. eapply FR; eauto.
    - intros j [[_ X]|[_ X]]; [contradiction|elim (NA _ X)].
    - intros j l b [[E1 X]|[E1 X]] [[E2 Y]|[E2 Y]]; subst; auto.
      + elim (DI _ _ E2 Y X).
      + elim (DI _ _ E1 X Y).
      + eauto.
    - intros b. unfold fp_sub. split.
      + intros [X|[[j [E X]]|X]]; [left; auto| |]; right; [exists j; right; auto|exists i; left; auto].
      + intros [X|[j [[E X]|[E X]]]]; auto. right. left. eauto.
  Qed.

  Definition osim {A B} (x : outcome A) (y : outcome B) (P : A -> B -> Prop) : Prop :=
    match x, y with
    | Ret a, Ret b => P a b
    | UB, UB | Fuel, Fuel | Exn, Exn => True
    | _, _ => False
    end.

  (** add *)
  Lemma add_rep : forall f os h t a n F p ob, rep h t (Some a) n F -> live os t = Some ob ->
    osim (node_add f (q_res ob) n p) (p_add f os h a p) (fun n' h' => exists F', rep h' t (Some a) n' F' /\ trans h F h' F').
  Proof.
    induction f as [|f IH]; intros os h t a n F p ob R L; [exact I|].
    destruct (rep_some _ _ _ _ _ R) as [s [sp [o [ch ->]]]].
    pose proof (rep_alive _ _ _ _ _ R) as AL.
    destruct (rep_open _ _ _ _ _ _ _ _ R) as [kids [Fs [LA [RK [NA [DJ FE]]]]]].
    cbn [node_add p_add]. rewrite (rd_live _ _ _ LA). cbn [obind c_tree c_size c_split c_kid]. rewrite (rd_live _ _ _ L). cbn [obind].
    pose proof (live_lt _ _ _ LA) as LT.
    destruct (nltb _ (q_res ob)).
    - rewrite (wr_live _ _ _ _ LA). cbn [osim set_occ c_size c_split c_kid c_tree]. exists F. split.
      + apply rep_close with (kids := kids) (Fs := Fs); auto.
        * apply upd_eq. auto.
        * intros i. eapply rep_frame; [apply RK|]. intros b B. apply upd_ne. intros <-. elim (NA _ B).
      + split; [rewrite upd_len; lia|]. split; [|split].
        * intros b _ N. apply upd_ne. intros <-. apply N, FE. auto.
        * auto.
        * intros b c [X|X] LB; auto. apply live_lt in LB. rewrite upd_len in LB. lia.
    - cbv zeta. set (bx := nltb sp (vx p)). set (by_ := nltb sp (vy p)). set (bz := nltb sp (vz p)).
      set (q := V3 _ _ _). set (i := (bx, by_, bz)).
      set (c := match ch bx by_ bz with Null => node_new (ndiv s n2) | Node _ _ _ _ as c0 => c0 end).
      set (kh := match kids i with Some k => Ret (k, h) | None => _ end).
      assert (K : exists k h2 kids2 Fk, kh = Ret (k, h2) /\ (length h <= length h2)%nat /\ live h2 a = Some (Cell s sp o kids2 t) /\
        (forall j, j <> i -> kids2 j = kids j) /\ kids2 i = Some k /\ rep h2 t (Some k) c Fk /\
        (forall b, Fk b -> Fs i b \/ (length h <= b)%nat) /\ (forall b, Fs i b -> Fk b) /\
        (forall b, b <> a -> (b < length h)%nat -> live h2 b = live h b) /\ (forall b c, (length h <= b)%nat -> live h2 b = Some c -> Fk b)).
      { pose proof (RK i) as RI. unfold kh, c. change (ch bx by_ bz) with (at3 ch i) in *.
        destruct (kids i) as [k|] eqn:KI.
        - exists k, h, kids, (Fs i). destruct (rep_some _ _ _ _ _ RI) as [s' [sp' [o' [ch' EC]]]]. rewrite EC in *.
          split; auto. split; [lia|]. split; auto. split; auto. split; auto. split; auto. split; auto. split; auto. split; auto.
          intros b c' X Y. apply live_lt in Y. lia.
        - rewrite (rep_null _ _ _ _ RI). cbn [alloc]. rewrite (wr_live _ a (Cell s sp o kids t)) by (rewrite app_live_old; auto).
          cbn [obind set_kid c_size c_split c_occ c_kid c_tree]. eexists _, _, _, (fun b => b = length h). split; [reflexivity|].
          split; [rewrite upd_len, app_len; lia|]. split; [apply upd_eq; rewrite app_len; lia|].
          split; [intros j J; apply put_ne; auto|]. split; [apply put_eq|]. split; [|split; [|split; [|split]]].
          + eapply rep_frame; [apply rep_leaf|]. intros b ->. apply upd_ne. lia.
          + intros b ->. right. lia.
          + intros b B. rewrite (rep_null _ _ _ _ RI) in RI. destruct RI as [_ RI]. elim (RI b B).
          + intros b N LB. rewrite upd_ne by auto. apply app_live_old. auto.
          + intros b c' X Y. apply live_lt in Y. rewrite upd_len, app_len in Y. lia. }
      destruct K as [k [h2 [kids2 [Fk [EK [LEN [LA2 [KO [KI [RK2 [FK1 [FK2 [FR FRE]]]]]]]]]]]]].
      rewrite EK. cbn [obind]. specialize (IH os h2 t k c Fk q ob RK2 L).
      destruct (node_add f (q_res ob) c q) as [n'| | |], (p_add f os h2 k q) as [h'| | |]; cbn [osim obind] in *; auto.
      destruct IH as [Fk' [RK' [T1 [T2 [T3 T4]]]]].
      assert (NAk : ~ Fk a). { intros X. destruct (FK1 _ X) as [Y|Y]; [elim (NA _ Y)|lia]. }
      exists (fp_sub a Fs i Fk'). split.
      + eapply rep_sub with (h := h) (kids := kids) (kids' := kids2); eauto.
        * rewrite T2; auto. lia.
        * fold i. rewrite KI. exact RK'.
        * intros j b J B. assert (b < length h)%nat by (eapply rep_lt; [apply RK|eauto]). rewrite T2; [|lia|].
          -- apply FR; auto. intros ->. elim (NA _ B).
          -- intros X. destruct (FK1 _ X) as [Y|Y]; [|lia]. elim J. apply (DJ j i b B Y).
        * intros X. destruct (T3 _ X); [contradiction|]. lia.
        * intros j b J B X. assert (b < length h)%nat by (eapply rep_lt; [apply RK|eauto]).
          destruct (T3 _ X) as [Y|Y]; [|lia]. destruct (FK1 _ Y) as [Z|Z]; [|lia]. elim J. apply (DJ j i b B Z).
      + split; [lia|]. split; [|split].
        * intros b LB N. rewrite T2; [|lia|].
          -- apply FR; auto. intros ->. apply N, FE. auto.
          -- intros X. destruct (FK1 _ X) as [Y|Y]; [|lia]. apply N, FE. eauto.
        * intros b [X|[[j [J X]]|X]]; [left; apply FE; auto|left; apply FE; eauto|].
          destruct (T3 _ X) as [Y|Y]; [|right; lia]. destruct (FK1 _ Y) as [Z|Z]; auto. left. apply FE. eauto.
        * intros b c' X LB. destruct X as [X|X].
          -- apply FE in X. destruct X as [-> |[j X]]; [left; auto|]. destruct (idx_dec j i) as [-> |J]; [|right; left; eauto].
             right. right. eapply T4; eauto.
          -- right. right. destruct (le_lt_dec (length h2) b) as [G|G]; [eapply T4; eauto|].
             destruct (live h2 b) as [c2|] eqn:E2; [eapply T4; eauto|].
             assert (~ Fk b) by (intros Y; destruct (rep_alive _ _ _ _ _ RK2 b Y); congruence).
             rewrite T2 in LB by auto. congruence.
  Qed.

  Lemma rep_chext : forall h t p s sp o ch ch' F, (forall i, at3 ch i = at3 ch' i) -> rep h t p (Node s sp o ch) F -> rep h t p (Node s sp o ch') F.
  Proof.
    intros h t p s sp o ch ch' F E R. cbn [rep] in *. destruct R as [a [kids [Fs [H1 [H2 [H3 H4]]]]]]. exists a, kids, Fs. split; auto. split; auto.
    split; [|exact H4]. intros x y z. specialize (E (x, y, z)). cbn in E. rewrite <- E. auto.
  Qed.
  Lemma upd_rep_other : forall h t p n F a x, rep h t p n F -> ~ F a -> rep (upd h a x) t p n F.
  Proof. intros h t p n F a x R N. eapply rep_frame; eauto. intros b B. apply upd_ne. intros <-. contradiction. Qed.

  (** copy *)
  Definition nofp : nat -> Prop := fun _ => False.
  Lemma copy_fold : forall g' t' t h kids ch Fs b,
    (forall i, rep h t (kids i) (at3 ch i) (Fs i)) ->
    (forall i hc k, rep hc t (Some k) (at3 ch i) (Fs i) -> exists k' h' F', p_copy g' hc k t' = Ret (k', h') /\
       rep h' t' (Some k') (node_copy (at3 ch i)) F' /\ trans hc nofp h' F') ->
    forall s sp o l, NoDup l -> forall hc chc Fc,
    (forall i, In i l -> at3 chc i = Null) -> rep hc t' (Some b) (Node s sp o chc) Fc -> trans h nofp hc Fc ->
    exists h' ch' F', ofold (fun h i =>
        match kids i with
        | None => Ret h
        | Some k =>
          let* kh := p_copy g' h k t' in
          let (k', h) := kh : nat * heap (cell T) in
          let* cb := rd h b in wr h b (set_kid cb i (Some k'))
        end) l hc = Ret h' /\ rep h' t' (Some b) (Node s sp o ch') F' /\ trans h nofp h' F' /\
      (forall i, In i l -> at3 ch' i = node_copy (at3 ch i)) /\ (forall i, ~ In i l -> at3 ch' i = at3 chc i).
  Proof.
    intros g' t' t h kids ch Fs b RK CP s sp o. induction l as [|i l IH]; intros ND hc chc Fc NU RB TR.
    - exists hc, chc, Fc. cbn [ofold]. repeat split; auto; try apply TR. contradiction.
    - inversion ND as [|? ? NI ND']; subst. cbn [ofold]. destruct (kids i) as [k|] eqn:KI.
      + assert (RKc : rep hc t (Some k) (at3 ch i) (Fs i)).
        { rewrite <- KI. eapply rep_frame; [apply RK|]. intros x X. destruct TR as [_ [TR _]]. apply TR; [|intros []].
          eapply rep_lt; [apply RK|eauto]. }
        destruct (CP i hc k RKc) as [k' [h1 [Fk [E1 [R1 TR1]]]]]. rewrite E1. cbn [obind].
        destruct (rep_open _ _ _ _ _ _ _ _ RB) as [kc [Fsc [LB [RKb [NB [DJ FE]]]]]].
        pose proof (live_lt _ _ _ LB) as LT. destruct TR1 as [T1 [T2 [T3 T4]]].
        assert (LB1 : live h1 b = Some (Cell s sp o kc t')) by (rewrite T2; auto).
        rewrite (rd_live _ _ _ LB1). cbn [obind]. rewrite (wr_live _ _ _ _ LB1). cbn [obind set_kid c_size c_split c_occ c_kid c_tree].
        assert (NBk : ~ Fk b) by (intros X; destruct (T3 _ X) as [[]|]; lia).
        destruct i as [[x y] z].
        destruct (IH ND' (upd h1 b (Some (Cell s sp o (put kc (x, y, z) (Some k')) t'))) (set_ch chc x y z (node_copy (at3 ch (x, y, z)))) (fp_sub b Fsc (x, y, z) Fk)) as [h' [ch' [F' [E' [R' [TR' [A' B']]]]]]].
        * intros j J. rewrite at3_set. rewrite idx_eqb_ne by (intros <-; contradiction). apply NU. right. auto.
        * eapply rep_sub with (h := hc) (kids := kc) (kids' := put kc (x, y, z) (Some k')); eauto.
          -- apply upd_eq. lia.
          -- intros j J. apply put_ne. auto.
          -- rewrite put_eq. apply upd_rep_other; auto.
          -- intros j c J X. rewrite upd_ne by (intros <-; elim (NB _ X)). apply T2; [|intros []]. eapply rep_lt; [apply RKb|eauto].
          -- intros j c J X Y. destruct (T3 _ Y) as [[]|Z]. assert (c < length hc)%nat by (eapply rep_lt; [apply RKb|eauto]). lia.
        * destruct TR as [S1 [S2 [S3 S4]]]. split; [rewrite upd_len; lia|].
          assert (HB : (length h <= b)%nat). { destruct (S3 b) as [[]|]; auto. apply FE. auto. }
          split; [|split].
          -- intros c L N. rewrite upd_ne by lia. rewrite T2; [apply S2; auto|lia|intros []].
          -- intros c [-> |[[j [J X]]|X]]; auto.
             ++ apply S3, FE. eauto.
             ++ destruct (T3 _ X) as [[]|]. right. lia.
          -- intros c cc [[]|X] L. destruct (Nat.eq_dec c b) as [-> |NE]; [left; auto|]. rewrite upd_ne in L by auto.
             destruct (le_lt_dec (length hc) c) as [G|G]; [right; right; eapply T4; eauto|].
             rewrite T2 in L by (auto; intros []). assert (Y : Fc c) by (eapply S4; eauto). apply FE in Y. destruct Y as [Y|[j Y]]; [contradiction|].
             right. left. exists j. split; auto. intros ->.
             specialize (RKb (x, y, z)). rewrite (NU _ (or_introl eq_refl)) in RKb. destruct RKb as [_ RKb]. elim (RKb c Y).
        * exists h', ch', F'. split; auto. split; auto. split; auto. split.
          -- intros j [<- |J]; auto. rewrite B' by auto. rewrite at3_set, idx_eqb_refl. auto.
          -- intros j J. rewrite B' by (intros X; apply J; right; auto). rewrite at3_set, idx_eqb_ne; auto. intros <-. apply J. left. auto.
      + cbn [obind]. destruct (IH ND' hc chc Fc) as [h' [ch' [F' [E' [R' [TR' [A' B']]]]]]]; auto.
        { intros j J. apply NU. right. auto. }
        exists h', ch', F'. split; auto. split; auto. split; auto. split.
        * intros j [<- |J]; auto. rewrite B' by auto. rewrite NU by (left; auto). specialize (RK i). rewrite KI in RK. now rewrite (rep_null _ _ _ _ RK).
        * intros j J. apply B'. intros X. apply J. right. auto.
  Qed.
  Lemma idx8_nodup : NoDup idx8.
  Proof. unfold idx8. repeat (constructor; [cbn; intuition congruence|]). constructor. Qed.
  Lemma copy_rep : forall n g h t a F t', rep h t (Some a) n F -> (depth n <= g)%nat ->
    exists b h' F', p_copy g h a t' = Ret (b, h') /\ rep h' t' (Some b) (node_copy n) F' /\ trans h nofp h' F'.
  Proof.
    induction n as [|s sp o ch IH]; intros g h t a F t' R D; [destruct R; discriminate|].
    destruct (rep_open _ _ _ _ _ _ _ _ R) as [kids [Fs [LA [RK [NA [DJ FE]]]]]].
    destruct g as [|g']; [cbn in D; lia|]. cbn [p_copy]. rewrite (rd_live _ _ _ LA). cbn [obind alloc c_size c_split c_occ c_kid].
    pose proof (rep_leaf h t' s sp o) as RL.
    destruct (copy_fold g' t' t h kids ch Fs (length h) RK) with (s := s) (sp := sp) (o := o) (l := idx8) (hc := h ++ [Some (Cell s sp o (fun _ => None) t')])
      (chc := fun _ _ _ : bool => Null : node T) (Fc := fun b => b = length h) as [h' [ch' [F' [E' [R' [TR' [A' B']]]]]]]; auto.
    - intros [[x y] z] hc k RC. cbn [at3] in *. eapply IH; eauto. pose proof (depth_kid s sp o ch (x, y, z)). cbn [at3] in H. lia.
    - apply idx8_nodup.
    - intros [[x y] z] _. auto.
    - split; [rewrite app_len; lia|]. split; [|split].
      + intros b L _. apply app_live_old. auto.
      + intros b ->. right. lia.
      + intros b c [[]|X] L. apply live_lt in L. rewrite app_len in L. lia.
    - rewrite E'. cbn [obind]. exists (length h), h', F'. split; auto. split; auto.
      cbn [node_copy]. eapply rep_chext; [|exact R']. intros [[x y] z]. rewrite A' by apply idx8_all. auto.
  Qed.

  (** delete *)
  Lemma delete_rep : forall n g h t a F, rep h t (Some a) n F -> (depth n <= g)%nat ->
    exists h', p_delete g h a = Ret h' /\ length h' = length h /\ (forall b, F b -> live h' b = None) /\ (forall b, ~ F b -> live h' b = live h b).
  Proof.
    induction n as [|s sp o ch IH]; intros g h t a F R D; [destruct R; discriminate|].
    destruct (rep_open _ _ _ _ _ _ _ _ R) as [kids [Fs [LA [RK [NA [DJ FE]]]]]].
    destruct g as [|g']; [cbn in D; lia|]. cbn [p_delete]. rewrite (rd_live _ _ _ LA). cbn [obind c_kid].
    assert (FO : forall l, NoDup l -> forall hc, length hc = length h -> (forall i b, In i l -> Fs i b -> live hc b = live h b) ->
      exists h', ofold (fun h i => match kids i with None => Ret h | Some k => p_delete g' h k end) l hc = Ret h' /\ length h' = length h /\
        (forall i b, In i l -> Fs i b -> live h' b = None) /\ (forall b, (forall i, In i l -> ~ Fs i b) -> live h' b = live hc b)).
    { induction l as [|i l IHl]; intros ND hc LEN EQ.
      - exists hc. cbn. repeat split; auto. contradiction.
      - inversion ND as [|? ? NI ND']; subst. cbn [ofold].
        assert (ST : exists h1, match kids i with None => Ret hc | Some k => p_delete g' hc k end = Ret h1 /\ length h1 = length h /\
          (forall b, Fs i b -> live h1 b = None) /\ (forall b, ~ Fs i b -> live h1 b = live hc b)).
        { pose proof (RK i) as RI. destruct (kids i) as [k|].
          - assert (RC : rep hc t (Some k) (at3 ch i) (Fs i)). { eapply rep_frame; eauto. intros b B. eapply EQ; eauto. left. auto. }
            pose proof (depth_kid s sp o ch i) as DK. destruct i as [[x y] z]. cbn [at3] in *.
            destruct (IH x y z g' hc t k (Fs (x, y, z)) RC ltac:(lia)) as [h1 [E1 [L1 [D1 K1]]]]. exists h1. repeat split; auto. lia.
          - exists hc. repeat split; auto. intros b B. rewrite (rep_null _ _ _ _ RI) in RI. destruct RI as [_ RI]. elim (RI b B). }
        destruct ST as [h1 [E1 [L1 [D1 K1]]]]. match goal with |- context [obind ?m _] => replace m with (@Ret (heap (cell T)) h1) by (symmetry; exact E1) end. cbn [obind].
        destruct (IHl ND' h1 L1) as [h' [E' [L' [D' K']]]].
        { intros j b J B. rewrite K1; [eapply EQ; eauto; right; auto|]. intros X. rewrite (DJ _ _ _ X B) in NI. contradiction. }
        exists h'. split; auto. split; auto. split.
        + intros j b [<- |J] B; [|eapply D'; eauto]. rewrite K'; auto. intros l' J X. rewrite (DJ _ _ _ B X) in NI. contradiction.
        + intros b N. rewrite K'; [apply K1, N; left; auto|]. intros j J. apply N. right. auto. }
    destruct (FO idx8 idx8_nodup h eq_refl) as [h' [E' [L' [D' K']]]]; auto. rewrite E'. cbn [obind].
    assert (LA' : live h' a = Some (Cell s sp o kids t)). { rewrite K'; auto. }
    rewrite (free_live _ _ _ LA'). eexists. split; [reflexivity|]. split; [rewrite upd_len; auto|]. split.
    - intros b B. destruct (Nat.eq_dec b a) as [-> |NE]; [apply upd_eq; apply live_lt in LA'; auto|]. rewrite upd_ne by auto.
      apply FE in B. destruct B as [B|[i B]]; [contradiction|]. eapply D'; eauto. apply idx8_all.
    - intros b N. rewrite upd_ne by (intros <-; apply N, FE; auto). apply K'. intros i _ X. apply N, FE. eauto.
  Qed.

  (** queries *)
  Lemma cubes_rep : forall n g h t a F cubes off, rep h t (Some a) n F -> (depth n <= g)%nat ->
    p_cubes g h a cubes off = Ret (cubes ++ node_cubes n off).
  Proof.
    induction n as [|s sp o ch IH]; intros g h t a F cubes off R D; [destruct R; discriminate|].
    destruct (rep_open _ _ _ _ _ _ _ _ R) as [kids [Fs [LA [RK _]]]].
    destruct g as [|g']; [cbn in D; lia|]. cbn [p_cubes]. rewrite (rd_live _ _ _ LA). cbn [obind c_occ c_size c_split c_kid node_cubes].
    destruct o; [reflexivity|]. generalize idx8. intros l. revert cubes. induction l as [|i l IHl]; intros cubes; cbn [ofold flat_map].
    - now rewrite app_nil_r.
    - pose proof (RK i) as RI. pose proof (depth_kid s sp false ch i) as DK. destruct i as [[x y] z]. cbn [at3] in *.
      destruct (kids (x, y, z)) as [k|].
      + rewrite (IH x y z g' h t k _ cubes _ RI) by lia. cbn [obind]. rewrite IHl. now rewrite <- app_assoc.
      + cbn [obind]. rewrite (rep_null _ _ _ _ RI). cbn [node_cubes app]. apply IHl.
  Qed.
  Lemma contains_rep : forall n g h t a F p, rep h t (Some a) n F -> (depth n <= g)%nat -> p_contains g h a p = Ret (node_contains n p).
  Proof.
    induction n as [|s sp o ch IH]; intros g h t a F p R D; [destruct R; discriminate|].
    destruct (rep_open _ _ _ _ _ _ _ _ R) as [kids [Fs [LA [RK _]]]].
    destruct g as [|g']; [cbn in D; lia|]. cbn [p_contains]. rewrite (rd_live _ _ _ LA). cbn [obind c_occ c_split c_kid node_contains].
    destruct o; [reflexivity|]. set (x := nltb sp (vx p)). set (y := nltb sp (vy p)). set (z := nltb sp (vz p)).
    pose proof (RK (x, y, z)) as RI. pose proof (depth_kid s sp false ch (x, y, z)) as DK. cbn [at3] in *.
    destruct (kids (x, y, z)) as [k|]; [eapply IH; eauto; lia|]. now rewrite (rep_null _ _ _ _ RI).
  Qed.
  Lemma oexists_ret : forall A (f : A -> outcome bool) f' l, (forall x, f x = Ret (f' x)) -> oexists f l = Ret (existsb f' l).
  Proof. intros A f f' l E. induction l as [|x l IH]; cbn; auto. rewrite E. cbn. destruct (f' x); auto. Qed.
  Lemma box_rep : forall n g h t a F mn mx, rep h t (Some a) n F -> (depth n <= g)%nat -> p_box g h a mn mx = Ret (node_box n mn mx).
  Proof.
    induction n as [|s sp o ch IH]; intros g h t a F mn mx R D; [destruct R; discriminate|].
    destruct (rep_open _ _ _ _ _ _ _ _ R) as [kids [Fs [LA [RK _]]]].
    destruct g as [|g']; [cbn in D; lia|]. cbn [p_box]. rewrite (rd_live _ _ _ LA). cbn [obind c_occ c_split c_kid node_box].
    destruct o; [reflexivity|]. apply oexists_ret. intros x. apply oexists_ret. intros y. apply oexists_ret. intros z.
    pose proof (RK (x, y, z)) as RI. pose proof (depth_kid s sp false ch (x, y, z)) as DK. cbn [at3] in *.
    destruct (kids (x, y, z)) as [k|]; [eapply IH; eauto; lia|]. now rewrite (rep_null _ _ _ _ RI).
  Qed.
  Lemma ray_rep : forall f os h t a n F r t0 t1 d ob, rep h t (Some a) n F -> live os t = Some ob ->
    p_ray f os h a r t0 t1 d = node_ray f (q_res ob) n r t0 t1 d.
  Proof.
    induction f as [|f IH]; intros os h t a n F r t0 t1 d ob R L; [reflexivity|].
    destruct (rep_some _ _ _ _ _ R) as [s [sp [o [ch ->]]]].
    destruct (rep_open _ _ _ _ _ _ _ _ R) as [kids [Fs [LA [RK _]]]].
    cbn [p_ray node_ray]. rewrite (rd_live _ _ _ LA). cbn [obind c_occ c_size c_split c_kid c_tree].
    destruct o; [reflexivity|]. destruct (outside _ s); [reflexivity|]. cbv zeta. rewrite (rd_live _ _ _ L). cbn [obind].
    match goal with |- (let* hd := match kids (?x, ?y, ?z) with _ => _ end in _) = _ => pose proof (RK (x, y, z)) as RI end. cbn [at3] in RI.
    match goal with |- (let* hd := match kids ?i with _ => _ end in _) = _ => destruct (kids i) as [k|] eqn:KI end.
    - destruct (rep_some _ _ _ _ _ RI) as [s' [sp' [o' [ch' EC]]]]. rewrite EC in *.
      rewrite (IH _ _ _ _ _ _ _ _ _ _ _ RI L). destruct (node_ray f (q_res ob) _ _ t0 t1 d) as [[hit d']| | |]; cbn [obind]; auto.
      destruct hit; auto. eapply IH; eauto.
    - rewrite (rep_null _ _ _ _ RI). cbn [obind]. eapply IH; eauto.
  Qed.
  Lemma raytrace_rep : forall f os h t a n F o dir t0 t1 ob, rep h t (Some a) n F -> live os t = Some ob ->
    osim (node_raytrace f (q_res ob) n o dir t0 t1) (p_raytrace f os h a o dir t0 t1) (fun n' h' => exists F', rep h' t (Some a) n' F' /\ trans h F h' F').
  Proof.
    induction f as [|f IH]; intros os h t a n F o dir t0 t1 ob R L; [exact I|].
    destruct (rep_some _ _ _ _ _ R) as [s [sp [oc [ch ->]]]].
    pose proof (rep_alive _ _ _ _ _ R) as AL.
    destruct (rep_open _ _ _ _ _ _ _ _ R) as [kids [Fs [LA [RK [NA [DJ FE]]]]]].
    cbn [p_raytrace node_raytrace]. rewrite (rd_live _ _ _ LA). cbn [obind c_occ c_size c_split c_kid c_tree].
    destruct (nltb t1 t0); [cbn [osim]; exists F; split; auto; apply trans_refl; auto|].
    destruct (outside _ s); [cbn [osim]; exists F; split; auto; apply trans_refl; auto|].
    rewrite (wr_live _ _ _ _ LA). cbn [obind set_occ c_size c_split c_kid c_tree]. rewrite (rd_live _ _ _ L). cbn [obind]. cbv zeta.
    pose proof (live_lt _ _ _ LA) as LT.
    set (h1 := upd h a _). set (newo := vadd o _).
    set (x := nleb sp (vx newo)). set (y := nleb sp (vy newo)). set (z := nleb sp (vz newo)). set (dv := V3 (sel x sp) (sel y sp) (sel z sp)).
    assert (LA1 : live h1 a = Some (Cell s sp false kids t)) by (apply upd_eq; auto).
    assert (RK1 : forall i, rep h1 t (kids i) (at3 ch i) (Fs i)) by (intros i; apply upd_rep_other; auto).
    assert (R1 : rep h1 t (Some a) (Node s sp false ch) F) by (eapply rep_close; eauto).
    assert (TR1 : trans h F h1 F).
    { split; [unfold h1; rewrite upd_len; lia|]. split; [|split; auto].
      - intros b _ N. apply upd_ne. intros <-. apply N, FE. auto.
      - intros b c [X|X] LB; auto. apply live_lt in LB. unfold h1 in LB. rewrite upd_len in LB. lia. }
    set (mv := match ch x y z with Null => Ret ch | Node _ _ _ _ as c => _ end).
    set (mp := match kids (x, y, z) with None => Ret h1 | Some k => _ end).
    assert (KM : osim mv mp (fun ch' h2 => exists F2, rep h2 t (Some a) (Node s sp false ch') F2 /\ trans h F h2 F2)).
    { unfold mv, mp. pose proof (RK1 (x, y, z)) as RI. change (ch x y z) with (at3 ch (x, y, z)). destruct (kids (x, y, z)) as [k|] eqn:KI.
      - destruct (rep_some _ _ _ _ _ RI) as [s' [sp' [o' [ch' EC]]]]. rewrite EC in *. rewrite <- EC in *.
        pose proof (IH os h1 t k (at3 ch (x, y, z)) (Fs (x, y, z)) (vsub o dv) dir t0 t1 ob RI L) as G. rewrite EC in G |- *.
        destruct (node_raytrace f (q_res ob) _ (vsub o dv) dir t0 t1) as [c'| | |], (p_raytrace f os h1 k (vsub o dv) dir t0 t1) as [h2| | |]; cbn [osim obind] in *; auto.
        destruct G as [Fk [RK2 [T1 [T2 [T3 T4]]]]].
        assert (LEN1 : length h1 = length h) by (unfold h1; apply upd_len).
        exists (fp_sub a Fs (x, y, z) Fk). split.
        + eapply rep_sub with (h := h1) (kids := kids) (kids' := kids); eauto.
          * rewrite T2; auto. lia.
          * rewrite KI. exact RK2.
          * intros j b J B. apply T2; [eapply rep_lt; [apply RK1|eauto]|]. intros X. elim J. eapply DJ; eauto.
          * intros X. destruct (T3 _ X) as [Y|Y]; [elim (NA _ Y)|]. lia.
          * intros j b J B X. destruct (T3 _ X) as [Y|Y]; [elim J; eapply DJ; eauto|].
            assert (b < length h1)%nat by (eapply rep_lt; [apply RK1|eauto]). lia.
        + eapply trans_trans; [eapply rep_alive; exact R1|exact TR1|]. split; [auto|]. split; [|split].
          * intros b LB N. apply T2; auto. intros X. apply N, FE. eauto.
          * intros b [X|[[j [J X]]|X]]; [left; apply FE; auto|left; apply FE; eauto|]. destruct (T3 _ X); auto. left. apply FE. eauto.
          * intros b c [X|X] LB; [|right; right; eapply T4; eauto]. apply FE in X. destruct X as [-> |[j X]]; [left; auto|].
            destruct (idx_dec j (x, y, z)) as [-> |J]; [right; right; eapply T4; eauto|right; left; eauto].
      - rewrite (rep_null _ _ _ _ RI). cbn [osim]. exists F. auto. }
    destruct mv as [ch'| | |], mp as [h2| | |]; cbn [osim obind] in *; auto; try contradiction.
    destruct KM as [F2 [R2 TR2]].
    match goal with |- osim (node_raytrace f _ ?n2 o dir ?t0' t1) (p_raytrace f os h2 a _ _ _ _) _ => pose proof (IH os h2 t a n2 F2 o dir t0' t1 ob R2 L) as G end.
    match goal with |- osim ?u ?v _ => destruct u as [n3| | |], v as [h3| | |]; cbn [osim] in *; auto end.
    destruct G as [F3 [R3 TR3]]. exists F3. split; auto. eapply trans_trans; [eapply rep_alive; exact R2|exact TR2|exact TR3].
  Qed.

  (** more traversal fuel does not matter *)
  Lemma ofold_mono : forall A S (f f' : S -> A -> outcome S) l, (forall s a s', f s a = Ret s' -> f' s a = Ret s') ->
    forall s s', ofold f l s = Ret s' -> ofold f' l s = Ret s'.
  Proof.
    intros A S f f' l E. induction l as [|a l IH]; intros s s' H; cbn in *; auto.
    destruct (f s a) as [s1| | |] eqn:F1; try discriminate. rewrite (E _ _ _ F1). cbn in *. auto.
  Qed.
  Lemma copy_mono : forall g g' (h : heap (cell T)) a t r, (g <= g')%nat -> p_copy g h a t = Ret r -> p_copy g' h a t = Ret r.
  Proof.
    induction g as [|g IH]; intros g' h a t r L H; [discriminate|]. destruct g' as [|g']; [lia|]. cbn [p_copy] in *.
    destruct (rd h a) as [c| | |]; try discriminate. cbn [obind alloc] in *.
    match type of H with obind (ofold ?f ?l ?s) _ = _ => destruct (ofold f l s) as [h'| | |] eqn:E; try discriminate end.
    erewrite ofold_mono; [exact H| |exact E]. cbv beta. intros h1 i h2 X. destruct (c_kid c i) as [k|]; auto.
    destruct (p_copy g h1 k t) as [[k' h3]| | |] eqn:PC; try discriminate. rewrite (IH g' _ _ _ _ ltac:(lia) PC). exact X.
  Qed.
  Lemma delete_mono : forall g g' (h : heap (cell T)) a r, (g <= g')%nat -> p_delete g h a = Ret r -> p_delete g' h a = Ret r.
  Proof.
    induction g as [|g IH]; intros g' h a r L H; [discriminate|]. destruct g' as [|g']; [lia|]. cbn [p_delete] in *.
    destruct (rd h a) as [c| | |]; try discriminate. cbn [obind] in *.
    match type of H with obind (ofold ?f ?l ?s) _ = _ => destruct (ofold f l s) as [h'| | |] eqn:E; try discriminate end.
    erewrite ofold_mono; [exact H| |exact E]. cbv beta. intros h1 i h2 X. destruct (c_kid c i) as [k|]; auto. eapply IH; [|exact X]. lia.
  Qed.

  (** ** Several objects *)
  Definition same (ob : obj T) (o : octree T) : Prop :=
    o_base o = q_base ob /\ o_res o = q_res ob /\ o_off o = q_off ob /\ o_max o = q_max ob /\ o_size o = q_size ob /\ o_mesh o = q_mesh ob.
  Definition entry (h : heap (cell T)) (t : nat) (x : option (obj T)) (y : option (octree T)) (F : nat -> Prop) : Prop :=
    match x, y with
    | Some ob, Some o => same ob o /\ rep h t (Some (q_root ob)) (o_root o) F
    | None, None => forall a, ~ F a
    | _, _ => False
    end.
  Definition wrep (w : world T) (s : heap (octree T)) : Prop :=
    length (w_objs w) = length s /\ exists FP : nat -> nat -> Prop,
      (forall t, entry (w_nodes w) t (live (w_objs w) t) (live s t) (FP t)) /\
      (forall t u a, FP t a -> FP u a -> t = u) /\
      (forall a c, live (w_nodes w) a = Some c -> exists t, FP t a).
  Lemma entry_alive : forall h t x y F, entry h t x y F -> alive h F.
  Proof. intros h t [ob|] [o|] F E; cbn in E; try contradiction. - eapply rep_alive. apply E. - intros b B. elim (E b B). Qed.
  Lemma wrep_change : forall w s FP h' os' s' t F',
    length os' = length s' ->
    (forall t, entry (w_nodes w) t (live (w_objs w) t) (live s t) (FP t)) ->
    (forall t u a, FP t a -> FP u a -> t = u) -> (forall a c, live (w_nodes w) a = Some c -> exists t, FP t a) ->
    (forall u, u <> t -> live os' u = live (w_objs w) u /\ live s' u = live s u) ->
    entry h' t (live os' t) (live s' t) F' -> trans (w_nodes w) (FP t) h' F' ->
    wrep (World h' os') s'.
  Proof.
    intros w s FP h' os' s' t F' LEN EN DJ CV OT ET [T1 [T2 [T3 T4]]]. split; [exact LEN|].
    exists (fun u a => (u = t /\ F' a) \/ (u <> t /\ FP u a)). cbn [w_nodes w_objs].
    assert (AL : forall u a, FP u a -> (a < length (w_nodes w))%nat) by (intros u a X; eapply alive_lt; [eapply entry_alive, EN|exact X]).
    split; [|split].
    - intros u. destruct (Nat.eq_dec u t) as [-> |N].
      + destruct (live os' t) as [ob|], (live s' t) as [o|]; cbn [entry] in *; auto.
        * destruct ET as [E1 E2]. split; auto. eapply rep_ext; [|exact E2]. intros a. tauto.
        * intros a [[_ X]|[X _]]; [elim (ET a X)|now elim X].
      + destruct (OT u N) as [-> ->]. specialize (EN u). destruct (live (w_objs w) u) as [ob|], (live s u) as [o|]; cbn [entry] in *; auto.
        * destruct EN as [E1 E2]. split; auto. eapply rep_frame; [eapply rep_ext; [|exact E2]|].
          -- intros a. cbv beta. split; [auto|]. intros [[X _]|[_ X]]; [contradiction|auto].
          -- cbv beta. intros a [[X _]|[_ X]]; [contradiction|]. apply T2; [eauto|]. intros Y. apply N. eapply DJ; eauto.
        * intros a [[X _]|[_ X]]; [contradiction|elim (EN a X)].
    - intros u v a [[X Y]|[X Y]] [[Z W]|[Z W]]; subst; auto.
      + destruct (T3 _ Y) as [P|P]; [eapply DJ; eauto|]. specialize (AL _ _ W). lia.
      + destruct (T3 _ W) as [P|P]; [eapply DJ; eauto|]. specialize (AL _ _ Y). lia.
      + eapply DJ; eauto.
    - intros a c L. destruct (le_lt_dec (length (w_nodes w)) a) as [G|G]; [exists t; left; eauto|].
      destruct (live (w_nodes w) a) as [c0|] eqn:E0.
      + destruct (CV _ _ E0) as [u X]. destruct (Nat.eq_dec u t) as [-> |N]; [exists t; left; split; auto; eapply T4; eauto|exists u; right; auto].
      + rewrite T2 in L by (auto; intros X; destruct (entry_alive _ _ _ _ _ (EN t) a X); congruence). congruence.
  Qed.
  Lemma wrep_get : forall w s t, wrep w s -> osim (rd s t) (rd (w_objs w) t) (fun o ob => same ob o /\ live s t = Some o /\ live (w_objs w) t = Some ob).
  Proof.
    intros w s t [LEN [FP [EN _]]]. specialize (EN t). unfold rd. destruct (live (w_objs w) t), (live s t); cbn in *; auto. destruct EN. auto.
  Qed.
  (** replace object t *)
  Lemma wrep_mod : forall w s t ob o h' ob' o' (P : forall F, rep (w_nodes w) t (Some (q_root ob)) (o_root o) F ->
      exists F', rep h' t (Some (q_root ob')) (o_root o') F' /\ trans (w_nodes w) F h' F'),
    wrep w s -> live s t = Some o -> live (w_objs w) t = Some ob -> same ob' o' ->
    wrep (World h' (upd (w_objs w) t (Some ob'))) (upd s t (Some o')).
  Proof.
    intros w s t ob o h' ob' o' P [LEN [FP [EN [DJ CV]]]] LS LO SM.
    pose proof (EN t) as ET. rewrite LS, LO in ET. destruct ET as [_ RT]. destruct (P _ RT) as [F' [R' TR']].
    eapply wrep_change with (t := t); eauto.
    - rewrite !upd_len. exact LEN.
    - intros u N. rewrite !upd_ne by auto. auto.
    - rewrite !upd_eq by (eapply live_lt; eauto). cbn [entry]. auto.
  Qed.
  (** same nodes *)
  Lemma wrep_mod0 : forall w s t ob o ob' o', wrep w s -> live s t = Some o -> live (w_objs w) t = Some ob -> same ob' o' ->
    q_root ob' = q_root ob -> o_root o' = o_root o -> wrep (World (w_nodes w) (upd (w_objs w) t (Some ob'))) (upd s t (Some o')).
  Proof.
    intros w s t ob o ob' o' W LS LO SM E1 E2. eapply wrep_mod; eauto. intros F RF. exists F. rewrite E1, E2. split; auto. apply trans_refl. eapply rep_alive; eauto.
  Qed.
  Lemma wrep_same : forall w s t ob o, wrep w s -> live s t = Some o -> live (w_objs w) t = Some ob -> wrep w (upd s t (Some o)).
  Proof.
    intros w s t ob o [LEN [FP [EN [DJ CV]]]] LS LO. split; [rewrite upd_len; auto|]. exists FP. split; auto.
    intros u. destruct (Nat.eq_dec t u) as [<- |N].
    - rewrite upd_eq by (eapply live_lt; eauto). specialize (EN t). rewrite LS in EN. auto.
    - rewrite upd_ne by auto. auto.
  Qed.
  Lemma wrep_rep : forall w s t ob o, wrep w s -> live s t = Some o -> live (w_objs w) t = Some ob -> exists F, rep (w_nodes w) t (Some (q_root ob)) (o_root o) F.
  Proof. intros w s t ob o [LEN [FP [EN [DJ CV]]]] LS LO. specialize (EN t). rewrite LS, LO in EN. destruct EN. eauto. Qed.

  Definition wsim (x : outcome (ans T * heap (octree T))) (y : outcome (ans T * world T)) : Prop :=
    osim x y (fun a b => fst a = fst b /\ wrep (snd b) (snd a)).
  (** the step relation, with a bound beyond which traversal fuel is irrelevant *)
  Definition stepsim (f : nat) (s : heap (octree T)) (w : world T) (op : wop T) : Prop :=
    exists G r, (forall g, (G <= g)%nat -> w_step f g w op = r) /\ wsim (v_step f s op) r.

  Lemma same_mesh : forall ob o, same ob o -> o_mesh o = q_mesh ob.
  Proof. intros ob o S. apply S. Qed.
  Lemma mesh_sim : forall g h t ob o F, same ob o -> rep h t (Some (q_root ob)) (o_root o) F -> (depth (o_root o) <= g)%nat ->
    osim (oct_mesh o) (p_mesh g h ob) (fun a b => fst a = fst b /\ same (snd b) (snd a) /\ q_root (snd b) = q_root ob /\ o_root (snd a) = o_root o /\ q_base (snd b) = q_base ob).
  Proof.
    intros g h t ob o F S R D. destruct S as [S1 [S2 [S3 [S4 [S5 S6]]]]]. unfold oct_mesh, p_mesh, oct_cubes. rewrite S6.
    destruct (mesh_empty (q_mesh ob)).
    - rewrite (cubes_rep _ _ _ _ _ _ _ _ R D). cbn [obind]. rewrite S3.
      destruct (filterOverlapping _) as [m| | |]; cbn; auto. unfold same. cbn. auto 10.
    - cbn. unfold same. auto 10.
  Qed.

  Lemma query_sim : forall f s w t q, wrep w s -> stepsim f s w (WAsk t q).
  Proof.
    intros f s w t q W. pose proof (wrep_get w s t W) as G. unfold stepsim. cbn [v_step w_step]. unfold w_query.
    destruct (rd s t) as [o| | |], (rd (w_objs w) t) as [ob| | |]; cbn [osim obind] in *; try contradiction; try (exists 0%nat; eexists; split; [reflexivity|exact I]).
    destruct G as [SM [LS LO]]. destruct (wrep_rep _ _ _ _ _ W LS LO) as [F R]. destruct (SM) as [S1 [S2 [S3 [S4 [S5 S6]]]]].
    assert (WS : forall o', wr s t o' = Ret (upd s t (Some o'))) by (intros; eapply wr_live; eauto).
    assert (WO : forall o', wr (w_objs w) t o' = Ret (upd (w_objs w) t (Some o'))) by (intros; eapply wr_live; eauto).
    assert (KEEP : forall a, wsim (let* s1 := wr s t o in Ret (a, s1)) (Ret (a, w))).
    { intros a. rewrite WS. cbn. split; auto. eapply wrep_same; eauto. }
    exists (depth (o_root o)). destruct q; cbn [v_query].
    - eexists. split; [intros g L; rewrite (cubes_rep _ _ _ _ _ _ _ _ R L); reflexivity|]. cbn [obind fst snd app]. unfold oct_cubes. rewrite S3. apply KEEP.
    - unfold oct_contains. rewrite S3, S4. match goal with |- context [if ?b then Ret (ABool false, w) else _] => destruct b end.
      + eexists. split; [reflexivity|]. apply KEEP.
      + eexists. split; [intros g L; rewrite (contains_rep _ _ _ _ _ _ _ R L); reflexivity|]. apply KEEP.
    - unfold oct_box. rewrite S3, S4. cbv zeta. match goal with |- context [if ?b then Ret (ABool false, w) else _] => destruct b end.
      + eexists. split; [reflexivity|]. apply KEEP.
      + eexists. split; [intros g L; rewrite (box_rep _ _ _ _ _ _ _ _ R L); reflexivity|]. apply KEEP.
    - eexists. split; [reflexivity|]. unfold oct_ray. rewrite S2, S3, S4. destruct (box_ray _ r t0 t1 _) as [hit dist]. destruct (negb hit); [apply KEEP|].
      rewrite (ray_rep _ _ _ _ _ _ _ _ _ _ _ _ R LO). destruct (node_ray _ _ _ _ _ _ _) as [hd| | |]; cbn [obind]; try exact I. apply KEEP.
    - eexists (let* mo := p_mesh (depth (o_root o)) (w_nodes w) ob in let* os := wr (w_objs w) t (snd mo) in Ret (AMesh (fst mo), World (w_nodes w) os)). split.
      + intros g L. unfold p_mesh. destruct (mesh_empty _); [|reflexivity]. rewrite !(cubes_rep _ _ _ _ _ _ _ _ R) by lia. reflexivity.
      + pose proof (mesh_sim _ _ _ _ _ _ SM R (le_n _)) as M. destruct (oct_mesh o) as [mo| | |], (p_mesh _ _ ob) as [mp| | |]; cbn [osim obind] in *; try contradiction; try exact I.
        destruct M as [M1 [M2 [M3 [M4 M5]]]]. rewrite WS, WO. cbn [obind fst snd wsim osim]. split; [congruence|]. eapply wrep_mod0; eauto.
    - unfold oct_bbox. rewrite S1. destruct (s_bbv (q_base ob)).
      + destruct (shape_bbox (q_base ob) mesh_new) as [b sh] eqn:EB. eexists. split; [reflexivity|]. cbn [obind fst snd]. rewrite WS, WO. cbn [obind wsim osim fst snd]. split; auto.
        eapply wrep_mod0; eauto. unfold same. cbn. auto 10.
      + eexists (let* mo := p_mesh (depth (o_root o)) (w_nodes w) ob in let (b, sh) := shape_bbox (q_base (snd mo)) (fst mo) in let* os := wr (w_objs w) t (with_base (snd mo) sh) in Ret (ABBox b, World (w_nodes w) os)). split.
        * intros g L. unfold p_mesh. destruct (mesh_empty _); [|reflexivity]. rewrite !(cubes_rep _ _ _ _ _ _ _ _ R) by lia. reflexivity.
        * pose proof (mesh_sim _ _ _ _ _ _ SM R (le_n _)) as M. destruct (oct_mesh o) as [[m o']| | |], (p_mesh _ _ ob) as [[m' ob']| | |]; cbn [osim obind fst snd] in *; try contradiction; try exact I.
          destruct M as [<- [M2 [M3 [M4 M5]]]]. pose proof M2 as [Q1 [Q2 [Q3 [Q4 [Q5 Q6]]]]]. rewrite Q1.
          destruct (shape_bbox (q_base ob') m) as [b sh]. cbn [obind fst snd]. rewrite WS, WO. cbn [obind fst snd wsim osim]. split; auto.
          eapply wrep_mod0; eauto. unfold same. cbn. auto 10.
    - eexists. split; [reflexivity|]. rewrite S2. apply KEEP.
    - eexists. split; [reflexivity|]. unfold oct_maxRadius. rewrite S5. apply KEEP.
    - eexists. split; [reflexivity|]. unfold oct_empty. rewrite S1. apply KEEP.
  Qed.
  Lemma mod_sim : forall f s w t m, wrep w s -> stepsim f s w (WMod t m).
  Proof.
    intros f s w t m W. pose proof (wrep_get w s t W) as G. unfold stepsim. cbn [v_step w_step]. unfold w_mod.
    destruct (rd s t) as [o| | |], (rd (w_objs w) t) as [ob| | |]; cbn [osim obind] in *; try contradiction; try (exists 0%nat; eexists; split; [reflexivity|exact I]).
    destruct G as [SM [LS LO]]. destruct (wrep_rep _ _ _ _ _ W LS LO) as [F R]. destruct (SM) as [S1 [S2 [S3 [S4 [S5 S6]]]]].
    assert (WS : forall o', wr s t o' = Ret (upd s t (Some o'))) by (intros; eapply wr_live; eauto).
    assert (WO : forall o', wr (w_objs w) t o' = Ret (upd (w_objs w) t (Some o'))) by (intros; eapply wr_live; eauto).
    exists (depth (o_root o)). destruct m; cbn [v_mod].
    - eexists. split; [reflexivity|]. unfold oct_add. rewrite S2, S3.
      pose proof (add_rep f (w_objs w) (w_nodes w) t (q_root ob) (o_root o) F (vsub p (q_off ob)) ob R LO) as A.
      destruct (node_add _ _ _ _) as [n'| | |] eqn:EN, (p_add _ _ _ _ _) as [h'| | |] eqn:EP; cbn [osim obind] in *; try contradiction; try exact I.
      rewrite WS, WO. cbn [obind wsim osim fst snd]. split; auto. eapply wrep_mod; eauto.
      + intros F0 R0. pose proof (add_rep f (w_objs w) (w_nodes w) t (q_root ob) (o_root o) F0 (vsub p (q_off ob)) ob R0 LO) as A0. rewrite EN, EP in A0. exact A0.
      + unfold same. cbn. rewrite S6. auto 10.
    - destruct (delete_rep _ _ _ _ _ _ R (le_n _)) as [h' [E' [L' [D' K']]]].
      eexists. split; [intros g L; rewrite (delete_mono _ _ _ _ _ L E'); reflexivity|]. cbn [obind alloc]. rewrite WS, WO. cbn [obind wsim osim fst snd]. split; auto.
      eapply wrep_mod; eauto.
      + intros F0 R0. destruct (delete_rep _ _ _ _ _ _ R0 (le_n _)) as [h2 [E2 [L2 [D2 K2]]]]. rewrite E' in E2. injection E2 as <-.
        exists (fun b => b = length h'). cbn [oct_clear o_root q_root]. rewrite S5. split; [apply rep_leaf|].
        split; [rewrite app_len; lia|]. split; [|split].
        * intros b LB N. rewrite app_live_old by lia. apply K2. auto.
        * intros b ->. right. lia.
        * intros b c X LB. destruct (Nat.eq_dec b (length h')) as [|NE]; auto. assert (b < length h')%nat by (apply live_lt in LB; rewrite app_len in LB; lia).
          rewrite app_live_old in LB by auto. destruct X as [X|X]; [rewrite D2 in LB by auto; discriminate|lia].
      + unfold same. cbn. rewrite S6. auto 10.
    - eexists. split; [reflexivity|]. unfold oct_setRes. rewrite S5. destruct (halve f (q_size ob) req) as [r| | |]; cbn [obind]; try exact I.
      rewrite WS, WO. cbn [obind wsim osim fst snd]. split; auto. eapply wrep_mod0; eauto. unfold same. cbn. auto 10.
    - eexists. split; [reflexivity|]. unfold oct_raytrace. rewrite S2, S3, S4. destruct (box_ray _ r t0 t1 _) as [hit dist]. destruct (negb hit).
      { cbn [obind]. rewrite WS. cbn. split; auto. eapply wrep_same; eauto. }
      match goal with |- wsim (obind (obind (node_raytrace f ?r0 ?n ?x ?dir ?u1 ?u2) _) _) _ =>
        pose proof (fun F0 R0 => raytrace_rep f (w_objs w) (w_nodes w) t (q_root ob) (o_root o) F0 x dir u1 u2 ob R0 LO) as A end.
      match goal with |- wsim (obind (obind ?u _) _) (obind (obind ?v _) _) => destruct u as [n'| | |] eqn:EN, v as [h'| | |] eqn:EP; cbn [osim] in A; try (exfalso; exact (A F R)); try exact I end.
      cbn [obind]. unfold oct_add. cbn [o_res o_root o_off o_base o_max o_size o_mesh]. rewrite ?S2, ?S3.
      match goal with |- wsim (obind (obind (obind (node_add f ?r0 ?n ?x) _) _) _) _ =>
        pose proof (fun F0 R0 => add_rep f (w_objs w) h' t (q_root ob) n' F0 x ob R0 LO) as B end.
      destruct (A F R) as [F1 [R1 TR1]].
      match goal with |- wsim (obind (obind (obind ?u _) _) _) (obind (obind ?v _) _) => destruct u as [n2| | |] eqn:EN2, v as [h2| | |] eqn:EP2; cbn [osim] in B; try (exfalso; exact (B F1 R1)); try exact I end.
      cbn [obind o_res o_root o_off o_base o_max o_size o_mesh]. rewrite WS, WO. cbn [obind wsim osim fst snd]. split; auto. eapply wrep_mod; eauto.
      + intros F0 R0. destruct (A F0 R0) as [F2 [R2 TR2]]. destruct (B F2 R2) as [F3 [R3 TR3]]. exists F3. split; auto.
        eapply trans_trans; [eapply rep_alive; exact R2|exact TR2|exact TR3].
      + unfold same. cbn. rewrite S6. auto 10.
    - eexists. split; [reflexivity|]. cbn [obind]. rewrite WS, WO. cbn [obind wsim osim fst snd]. split; auto. eapply wrep_mod0; eauto. unfold same. cbn. rewrite S1. auto 10.
  Qed.
  Lemma new_sim : forall f s w size req, wrep w s -> stepsim f s w (WNew size req).
  Proof.
    intros f s w size req W. exists 0%nat. exists (w_step f 0 w (WNew size req)). split; [reflexivity|]. cbn [v_step w_step]. unfold w_new, oct_new, oct_setRes. cbn [alloc o_size].
    destruct (halve f size req) as [r| | |]; cbn [obind]; try exact I. cbn [wsim osim fst snd o_base o_res o_off o_max o_size o_root o_mesh]. split; auto.
    destruct W as [LEN [FP [EN [DJ CV]]]].
    eapply wrep_change with (t := length (w_objs w)) (F' := fun b => b = length (w_nodes w)); eauto.
    - rewrite !app_len. now rewrite LEN.
    - intros u N. destruct (le_lt_dec (length (w_objs w)) u) as [G|G].
      + rewrite !live_end; auto; try (rewrite app_len); lia.
      + rewrite !app_live_old by lia. auto.
    - rewrite app_live_new, LEN, app_live_new, <- LEN. cbn [entry]. split; [unfold same; cbn; auto 10|]. cbn [q_root o_root]. apply rep_leaf.
    - assert (NF : forall a, ~ FP (length (w_objs w)) a). { specialize (EN (length (w_objs w))). rewrite !live_end in EN by lia. exact EN. }
      split; [rewrite app_len; lia|]. split; [|split].
      + intros b LB _. apply app_live_old. auto.
      + intros b ->. right. lia.
      + intros b c [X|X] LB; [elim (NF b X)|]. apply live_lt in LB. rewrite app_len in LB. lia.
  Qed.
  Lemma copy_sim : forall f s w t, wrep w s -> stepsim f s w (WCopy t).
  Proof.
    intros f s w t W. pose proof (wrep_get w s t W) as G. unfold stepsim. cbn [v_step w_step]. unfold w_copy.
    destruct (rd s t) as [o| | |], (rd (w_objs w) t) as [ob| | |]; cbn [osim obind] in *; try contradiction; try (exists 0%nat; eexists; split; [reflexivity|exact I]).
    destruct G as [SM [LS LO]]. destruct (wrep_rep _ _ _ _ _ W LS LO) as [F R]. destruct (SM) as [S1 [S2 [S3 [S4 [S5 S6]]]]].
    destruct (copy_rep _ _ _ _ _ _ (length (w_objs w)) R (le_n _)) as [b [h' [F' [E' [R' TR']]]]].
    exists (depth (o_root o)). eexists. split; [intros g L; rewrite (copy_mono _ _ _ _ _ _ L E'); reflexivity|].
    cbn [obind wsim osim fst snd]. split; auto. destruct W as [LEN [FP [EN [DJ CV]]]].
    eapply wrep_change with (t := length (w_objs w)) (F' := F'); eauto.
    - rewrite !app_len. now rewrite LEN.
    - intros u N. destruct (le_lt_dec (length (w_objs w)) u) as [G|G].
      + rewrite !live_end; auto; try (rewrite app_len); lia.
      + rewrite !app_live_old by lia. auto.
    - rewrite app_live_new, LEN, app_live_new, <- LEN. cbn [entry]. split; [unfold same; cbn; auto 10|]. exact R'.
    - assert (NF : forall a, ~ FP (length (w_objs w)) a). { specialize (EN (length (w_objs w))). rewrite !live_end in EN by lia. exact EN. }
      eapply trans_ext; [| |exact TR']; [|tauto]. intros a. split; [intros []|intros X; elim (NF a X)].
  Qed.
  Lemma destroy_sim : forall f s w t, wrep w s -> stepsim f s w (WDestroy t).
  Proof.
    intros f s w t W. pose proof (wrep_get w s t W) as G. unfold stepsim. cbn [v_step w_step]. unfold w_destroy, free.
    destruct (rd s t) as [o| | |], (rd (w_objs w) t) as [ob| | |]; cbn [osim obind] in *; try contradiction; try (exists 0%nat; eexists; split; [reflexivity|exact I]).
    destruct G as [SM [LS LO]]. destruct W as [LEN [FP [EN [DJ CV]]]]. pose proof (EN t) as ET. rewrite LS, LO in ET. destruct ET as [_ R].
    destruct (delete_rep _ _ _ _ _ _ R (le_n _)) as [h' [E' [L' [D' K']]]].
    exists (depth (o_root o)). eexists. split; [intros g L; rewrite (delete_mono _ _ _ _ _ L E'); reflexivity|].
    cbn [obind wsim osim fst snd]. split; auto.
    eapply wrep_change with (t := t) (F' := nofp); eauto.
    - rewrite !upd_len. auto.
    - intros u N. rewrite !upd_ne by auto. auto.
    - rewrite !upd_eq by (eapply live_lt; eauto). cbn. auto.
    - split; [lia|]. split; [auto|]. split; [contradiction|]. intros b c [X|X] LB; [rewrite D' in LB by auto; discriminate|]. apply live_lt in LB. lia.
  Qed.
  Lemma assign_self : forall f s w t, wrep w s -> stepsim f s w (WAssign t t).
  Proof.
    intros f s w t W. pose proof (wrep_get w s t W) as G. unfold stepsim. cbn [v_step w_step]. unfold w_assign.
    destruct (rd s t) as [o| | |], (rd (w_objs w) t) as [ob| | |]; cbn [osim obind] in *; try contradiction; try (exists 0%nat; eexists; split; [reflexivity|exact I]).
    destruct G as [SM [LS LO]]. exists 0%nat. eexists. split; [reflexivity|]. rewrite (wr_live _ _ _ _ LS), (wr_live _ _ _ _ LO). cbn [obind wsim osim fst snd]. split; auto.
    eapply wrep_mod0; eauto.
  Qed.

  (** programs without assignment between different objects *)
  Definition no_assign (op : wop T) : Prop := match op with WAssign t u => t = u | _ => True end.
  Lemma step_sim : forall f s w op, no_assign op -> wrep w s -> stepsim f s w op.
  Proof.
    intros f s w [size req|t|t u|t|t m|t q] NA W.
    - apply new_sim; auto.
    - apply copy_sim; auto.
    - cbn in NA. subst u. apply assign_self; auto.
    - apply destroy_sim; auto.
    - apply mod_sim; auto.
    - apply query_sim; auto.
  Qed.
  Lemma run_sim : forall f ops s w, Forall no_assign ops -> wrep w s ->
    exists G r, (forall g, (G <= g)%nat -> w_run f g w ops = r) /\ osim (v_run f s ops) r (fun a b => fst a = fst b /\ wrep (snd b) (snd a)).
  Proof.
    intros f. induction ops as [|op ops IH]; intros s w NA W.
    - exists 0%nat, (w_run f 0 w []). split; [reflexivity|]. cbn. auto.
    - inversion NA as [|? ? N1 N2]; subst. destruct (step_sim f s w op N1 W) as [G1 [r1 [E1 S1]]]. cbn [v_run w_run].
      destruct (v_step f s op) as [[a s']| | |], r1 as [[a' w']| | |]; cbn [wsim osim fst snd] in S1; try contradiction;
        try (exists G1; eexists; split; [intros g L; rewrite (E1 g L); cbn [obind]; reflexivity|exact I]).
      destruct S1 as [<- W']. destruct (IH s' w' N2 W') as [G2 [r2 [E2 S2]]].
      exists (Nat.max G1 G2). eexists. split; [intros g L; rewrite (E1 g) by lia; cbn [obind snd]; rewrite (E2 g) by lia; reflexivity|].
      cbn [obind snd fst]. destruct (v_run f s' ops) as [[l s2]| | |], r2 as [[l' w2]| | |]; cbn [osim obind fst snd] in *; try contradiction; auto.
      destruct S2 as [-> W2]. auto.
  Qed.
  Lemma wrep_empty : wrep w_empty [].
  Proof.
    split; [reflexivity|]. exists (fun _ => nofp). split; [|split].
    - intros t. rewrite !live_end by (cbn; lia). cbn. auto.
    - contradiction.
    - intros a c L. rewrite live_end in L by (cbn; lia). discriminate.
  Qed.
End Rep.
