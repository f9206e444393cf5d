(** * Initialisation of the objects of matrix.h (C120) *)
From Coq Require Import ZArith List Bool Lia Reals Lra.
From Verif Require Import Num Outcome Matrix IntTypes MatrixInit P_Tac P_Math.
Import ListNotations.

(** a scalar that is initialised has the value, whatever the storage held *)
Definition rel {T} (c : cell T) (x : T) : Prop := match c with Val y => x = y | Uninit => True end.
Definition rel_l {T} : list (cell T) -> list T -> Prop := Forall2 rel.
Definition rel_t {T} (a : atr (cell T)) (b : atr T) : Prop := rel_l (a_o a) (a_o b) /\ rel_l (a_r a) (a_r b).
Definition rel_st {T} (a : mst (cell T)) (b : mst T) : Prop :=
  (forall d, rel_l (st_v a d) (st_v b d)) /\ (forall d, rel_l (st_m a d) (st_m b d)) /\ (forall d, rel_t (st_t a d) (st_t b d)).
Definition rel_o {A B} (r : A -> B -> Prop) (a : outcome A) (b : outcome B) : Prop :=
  match a, b with Ret x, Ret y => r x y | UB, UB => True | Exn, Exn => True | Fuel, Fuel => True | _, _ => False end.

Section Rel.
  Context {T : Type} {NT : Num T} {TR : Trig T}.
  Lemma rel_add : forall (a b : cell T) x y, rel a x -> rel b y -> rel (nadd a b) (nadd x y).
  Proof. intros [a|] [b|] x y; cbn; intros; subst; auto. Qed.
  Lemma rel_sub : forall (a b : cell T) x y, rel a x -> rel b y -> rel (nsub a b) (nsub x y).
  Proof. intros [a|] [b|] x y; cbn; intros; subst; auto. Qed.
  Lemma rel_mul : forall (a b : cell T) x y, rel a x -> rel b y -> rel (nmul a b) (nmul x y).
  Proof. intros [a|] [b|] x y; cbn; intros; subst; auto. Qed.
  Lemma rel_div : forall (a b : cell T) x y, rel a x -> rel b y -> rel (ndiv a b) (ndiv x y).
  Proof. intros [a|] [b|] x y; cbn; intros; subst; auto. Qed.
  Lemma rel_opp : forall (a : cell T) x, rel a x -> rel (nopp a) (nopp x).
  Proof. intros [a|] x; cbn; intros; subst; auto. Qed.
  Lemma rel_sqrt : forall (a : cell T) x, rel a x -> rel (nsqrt a) (nsqrt x).
  Proof. intros [a|] x; cbn; intros; subst; auto. Qed.
  Lemma rel_sin : forall (a : cell T) x, rel a x -> rel (nsin a) (nsin x).
  Proof. intros [a|] x; cbn; intros; subst; auto. Qed.
  Lemma rel_cos : forall (a : cell T) x, rel a x -> rel (ncos a) (ncos x).
  Proof. intros [a|] x; cbn; intros; subst; auto. Qed.
  Lemma rel_at : forall (a : list (cell T)) b i, rel_l a b -> rel (at_ a i) (at_ b i).
  Proof. intros a b i H. revert i. induction H as [|c x a b C H IH]; intros [|i]; cbn; auto. apply IH. Qed.
  Lemma rel_put : forall (a : list (cell T)) b i c x, rel_l a b -> rel c x -> rel_l (put a i c) (put b i x).
  Proof. intros a b i c x H C. revert i. induction H as [|c' x' a b C' H IH]; intros [|i]; cbn [put]; constructor; auto. apply IH. Qed.
  Ltac rels := repeat first [assumption | apply rel_add | apply rel_sub | apply rel_mul | apply rel_div | apply rel_opp | apply rel_sqrt | apply rel_sin | apply rel_cos | apply rel_at | apply rel_put | constructor].
  Lemma rel_raw : forall g b n, rel_l (raw (fun _ => Uninit) b n) (raw (T := T) g b n).
  Proof. intros g b n. unfold raw. revert b. induction n as [|n IH]; intros b; cbn [seq map]; constructor; [exact I|apply IH]. Qed.
  Lemma rel_norm : forall (a : list (cell T)) b, rel_l a b -> rel_l (av_normalize a) (av_normalize b).
  Proof.
    intros a b H. unfold av_normalize. cbv zeta. assert (L : rel (av_length a) (av_length b)) by (unfold av_length; rels).
    set (l := av_length a) in *. set (l' := av_length b) in *. clearbody l l'. assert (P : rel_l (put a 0 (ndiv (at_ a 0) l)) (put b 0 (ndiv (at_ b 0) l'))) by rels.
    set (p := put a 0 _) in *. set (p' := put b 0 _) in *. clearbody p p'. assert (P2 : rel_l (put p 1 (ndiv (at_ p 1) l)) (put p' 1 (ndiv (at_ p' 1) l'))) by rels.
    apply rel_put; auto. apply rel_div; auto. apply rel_at; auto.
  Qed.
  Lemma rel_rpy : forall (a : list (cell T)) b r p y r' p' y', rel_l a b -> rel r r' -> rel p p' -> rel y y' -> rel_l (arr_rpy a r p y) (arr_rpy b r' p' y').
  Proof. intros. unfold arr_rpy. cbv zeta. repeat (apply rel_put; [|rels]). auto. Qed.
  Lemma rel_ev : forall (s : mst (cell T)) s' a, rel_st s s' -> rel (ev s (cells_s a)) (ev s' a).
  Proof.
    intros s s' [x|v k|v|v|v w] [HV _]; cbn [cells_s ev]; unfold av_length, av_length2, av_dot; try (pose proof (HV v)); try (pose proof (HV w)); rels. 
  Qed.
  Lemma nth_rel : forall (a : list (cell T)) b i, rel_l a b -> match nth_error a i, nth_error b i with Some c, Some x => rel c x | None, None => True | _, _ => False end.
  Proof. intros a b i H. revert i. induction H as [|c x a b C H IH]; intros [|i]; cbn; auto. apply IH. Qed.
  Lemma rel_row : forall (a : list (cell T)) b i, rel_l a b -> rel_o rel_l (am_row a i) (am_row b i).
  Proof.
    intros a b i H. unfold am_row. cbv zeta. pose proof (nth_rel a b (i * 3) H) as A. pose proof (nth_rel a b (i * 3 + 1) H) as B. pose proof (nth_rel a b (i * 3 + 2) H) as C.
    destruct (nth_error a (i * 3)), (nth_error b (i * 3)); try contradiction; cbn; auto.
    destruct (nth_error a (i * 3 + 1)), (nth_error b (i * 3 + 1)); try contradiction; cbn; auto.
    destruct (nth_error a (i * 3 + 2)), (nth_error b (i * 3 + 2)); try contradiction; cbn; auto. repeat constructor; auto.
  Qed.
  Lemma rel_upd : forall A B (r : A -> B -> Prop) f f' d x x', (forall i, r (f i) (f' i)) -> r x x' -> forall i, r (upd f d x i) (upd f' d x' i).
  Proof. intros A B r f f' d x x' H X i. unfold upd. destruct (Nat.eqb i d); auto. Qed.
  Lemma rel_setv : forall (s : mst (cell T)) s' d x x', rel_st s s' -> rel_l x x' -> rel_st (set_v s d x) (set_v s' d x').
  Proof. intros s s' d x x' [A [B C]] X. split; [|split]; auto. apply rel_upd; auto. Qed.
  Lemma rel_setm : forall (s : mst (cell T)) s' d x x', rel_st s s' -> rel_l x x' -> rel_st (set_m s d x) (set_m s' d x').
  Proof. intros s s' d x x' [A [B C]] X. split; [|split]; auto. apply rel_upd; auto. Qed.
  Lemma rel_sett : forall (s : mst (cell T)) s' d x x', rel_st s s' -> rel_t x x' -> rel_st (set_t s d x) (set_t s' d x').
  Proof. intros s s' d x x' [A [B C]] X. split; [|split]; auto. apply rel_upd; auto. Qed.
  Lemma rel_step : forall g c (s : mst (cell T)) s', rel_st s s' -> rel_o rel_st (mstep (fun _ => Uninit) s (cells_c c)) (mstep g s' c).
  Proof.
    intros g c s s' H. pose proof H as [HV [HM HT]]. pose proof (fun a => rel_ev s s' a H) as HE.
    destruct c as [d|d x y z|d k x|d|d a b|d a b|d a f|d a f|d a|d m v|d t v|d m k|d t|d|d l|d r p y|d a b|d t|d|d x y z r p w|d m v|d r p y|d a b|d a]; cbn [cells_c mstep rel_o];
      try (apply rel_setv; [exact H|]); try (apply rel_setm; [exact H|]); try (apply rel_sett; [exact H|]).
    - apply rel_raw.
    - pose proof (HE x). pose proof (HE y). pose proof (HE z). unfold av. rels.
    - apply rel_put; auto.
    - apply rel_norm; auto.
    - pose proof (HV a). pose proof (HV b). unfold av_add, av. rels.
    - pose proof (HV a). pose proof (HV b). unfold av_sub, av. rels.
    - pose proof (HV a). pose proof (HE f). unfold av_scale, av. rels.
    - pose proof (HV a). pose proof (HE f). unfold av_divs, av. rels.
    - pose proof (HV a). unfold av_opp, av. rels.
    - pose proof (HM m). pose proof (HV v). unfold am_mulv, av. rels.
    - destruct (HT t) as [A B]. pose proof (HV v). unfold at_apply, av. cbv zeta. rels.
    - pose proof (rel_row _ _ k (HM m)) as G. destruct (am_row (st_m s m) k), (am_row (st_m s' m) k); cbn [rel_o obind] in *; try contradiction; auto. apply rel_setv; auto.
    - exact (proj1 (HT t)).
    - apply rel_raw.
    - induction l as [|a l IH]; cbn [map]; constructor; [apply HE|apply IH].
    - apply rel_rpy; auto.
    - pose proof (HM a). pose proof (HM b). unfold am_mul. rels.
    - exact (proj2 (HT t)).
    - split; apply rel_raw.
    - split; cbn [at_make a_o a_r]; [repeat constructor; auto|apply rel_rpy; auto; apply rel_raw].
    - split; cbn [at_of a_o a_r]; auto.
    - destruct (HT d) as [A B]. split; cbn [at_rpy a_o a_r]; [auto|apply rel_rpy; auto].
    - destruct (HT a) as [A B]. destruct (HT b) as [A' B']. unfold at_mul, rel_t. cbv zeta. cbn [a_o a_r]. split; rels.
    - destruct (HT a) as [A B]. unfold at_inverse, rel_t. cbv zeta. cbn [a_o a_r]. split; rels.
  Qed.
  Lemma rel_run : forall g cs k (s : mst (cell T)) s', rel_st s s' -> rel_o rel_st (mrun (fun _ _ => Uninit) k s (map cells_c cs)) (mrun g k s' cs).
  Proof.
    intros g cs. induction cs as [|c cs IH]; intros k s s' H; cbn [map mrun]; [exact H|].
    pose proof (rel_step (g k) c s s' H) as G. destruct (mstep (fun _ => Uninit) s (cells_c c)), (mstep (g k) s' c); cbn [rel_o obind] in *; try contradiction; auto.
  Qed.
  Lemma rel_start : forall g0, rel_st (mstart (fun _ _ _ => Uninit)) (mstart (T := T) g0).
  Proof. intros g0. split; [|split]; intros d; cbn [mstart st_v st_m st_t]; [apply rel_raw|apply rel_raw|split; cbn [a_o a_r]; apply rel_raw]. Qed.
End Rel.

(** the i-th element of an array holds the value x / is initialised with x *)
Definition s_holds {A} (l : list A) (i : nat) (x : A) : Prop := nth_error l i = Some x.
Lemma rel_holds : forall T (a : list (cell T)) b i x, rel_l a b -> s_holds a i (Val x) -> s_holds b i x.
Proof.
  intros T a b i x H. revert i. unfold s_holds. induction H as [|c y a b C H IH]; intros [|i]; cbn [nth_error]; try discriminate; auto.
  intros G. injection G as ->. cbn in C. rewrite C. reflexivity.
Qed.
(** whatever is initialised after a program does not depend on what the storage held *)
Theorem C120_independent : forall (T : Type) (NT : Num T) (TR : Trig T) (cs : list (mcall T)) g g0 s, cells cs = Ret s ->
  exists s', mrun g 0 (mstart g0) cs = Ret s' /\
    (forall d i x, s_holds (st_v s d) i (Val x) -> s_holds (st_v s' d) i x) /\ (forall d i x, s_holds (st_m s d) i (Val x) -> s_holds (st_m s' d) i x) /\
    (forall d i x, s_holds (a_o (st_t s d)) i (Val x) -> s_holds (a_o (st_t s' d)) i x) /\ (forall d i x, s_holds (a_r (st_t s d)) i (Val x) -> s_holds (a_r (st_t s' d)) i x).
Proof.
  intros T NT TR cs g g0 s E. unfold cells in E. pose proof (rel_run g cs 0 _ _ (rel_start g0)) as H. rewrite E in H.
  destruct (mrun g 0 (mstart g0) cs) as [s'| | |]; cbn [rel_o] in H; try contradiction.
  exists s'. split; auto. destruct H as [HV [HM HT]]. split; [|split; [|split]]; intros d i x; apply rel_holds; auto; apply HT.
Qed.

(** arrays keep their sizes *)
Definition sized {T} (s : mst T) : Prop := (forall d, length (st_m s d) = 9%nat) /\ (forall d, length (a_r (st_t s d)) = 9%nat).
(** the constructor from nine numbers gets nine numbers *)
Definition s_nine {T} (c : mcall T) : Prop := match c with MMake _ l => length l = 9%nat | _ => True end.
Definition s_bad_row {T} (c : mcall T) : Prop := match c with VRow _ _ k => (3 <= k)%nat | _ => False end.
Lemma put_length : forall T (a : list T) i x, length (put a i x) = length a.
Proof. intros T a. induction a as [|y a IH]; intros [|i] x; cbn; auto. Qed.
Lemma rpy_length : forall T (NT : Num T) (TR : Trig T) a (r p y : T), length (arr_rpy a r p y) = length a.
Proof. intros. unfold arr_rpy. cbv zeta. rewrite !put_length. reflexivity. Qed.
Lemma raw_length : forall T (g : nat -> T) b n, length (raw g b n) = n.
Proof. intros. unfold raw. rewrite map_length, seq_length. reflexivity. Qed.
Lemma row_ok : forall T (m : list T) k, length m = 9%nat -> (k < 3)%nat -> exists r, am_row m k = Ret r.
Proof.
  intros T m k L K. unfold am_row. cbv zeta.
  assert (G : forall j, (j < 9)%nat -> exists x, nth_error m j = Some x). { intros j J. destruct (nth_error m j) eqn:E; eauto. apply nth_error_None in E. lia. }
  destruct (G (k * 3)%nat ltac:(lia)) as [x ->]. destruct (G (k * 3 + 1)%nat ltac:(lia)) as [y ->]. destruct (G (k * 3 + 2)%nat ltac:(lia)) as [z ->]. cbn. eauto.
Qed.
Lemma row_bad : forall T (m : list T) k, length m = 9%nat -> (3 <= k)%nat -> am_row m k = UB.
Proof. intros T m k L K. unfold am_row. cbv zeta. assert (E : nth_error m (k * 3) = None) by (apply nth_error_None; lia). rewrite E. reflexivity. Qed.
Lemma sized_m : forall T (s : mst T) d x, sized s -> length x = 9%nat -> sized (set_m s d x).
Proof. intros T s d x [A B] X. split; intros i; cbn; auto. unfold upd. destruct (Nat.eqb i d); auto. Qed.
Lemma sized_t : forall T (s : mst T) d x, sized s -> length (a_r x) = 9%nat -> sized (set_t s d x).
Proof. intros T s d x [A B] X. split; intros i; cbn; auto. unfold upd. destruct (Nat.eqb i d); auto. Qed.
Lemma sized_step : forall T (NT : Num T) (TR : Trig T) g c (s : mst T), sized s -> s_nine c ->
  (s_bad_row c /\ mstep g s c = UB) \/ (~ s_bad_row c /\ exists s', mstep g s c = Ret s' /\ sized s').
Proof.
  intros T NT TR g c s S N. pose proof S as [SM ST].
  destruct c as [d|d x y z|d k x|d|d a b|d a b|d a f|d a f|d a|d m v|d t v|d m k|d t|d|d l|d r p y|d a b|d t|d|d x y z r p w|d m v|d r p y|d a b|d a]; cbn [mstep s_bad_row s_nine] in *;
    try (right; split; [tauto|]; eexists; split; [reflexivity|]; exact S).
  - destruct (le_lt_dec 3 k) as [K|K]; [left; rewrite (row_bad _ _ k (SM m) K); auto|right]. split; [lia|]. destruct (row_ok _ _ k (SM m) K) as [r E]. rewrite E. cbn [obind]. eexists. split; [reflexivity|]. exact S.
  - right. split; [tauto|]. eexists. split; [reflexivity|]. apply sized_m; [auto|apply raw_length].
  - right. split; [tauto|]. eexists. split; [reflexivity|]. apply sized_m; [auto|]. rewrite map_length. auto.
  - right. split; [tauto|]. eexists. split; [reflexivity|]. apply sized_m; [auto|]. rewrite rpy_length. auto.
  - right. split; [tauto|]. eexists. split; [reflexivity|]. apply sized_m; auto.
  - right. split; [tauto|]. eexists. split; [reflexivity|]. apply sized_m; auto.
  - right. split; [tauto|]. eexists. split; [reflexivity|]. apply sized_t; [auto|apply raw_length].
  - right. split; [tauto|]. eexists. split; [reflexivity|]. apply sized_t; [auto|]. cbn [at_make a_r]. rewrite rpy_length. apply raw_length.
  - right. split; [tauto|]. eexists. split; [reflexivity|]. apply sized_t; [auto|]. cbn [at_of a_r]. auto.
  - right. split; [tauto|]. eexists. split; [reflexivity|]. apply sized_t; [auto|]. cbn [at_rpy a_r]. rewrite rpy_length. auto.
  - right. split; [tauto|]. eexists. split; [reflexivity|]. apply sized_t; auto.
  - right. split; [tauto|]. eexists. split; [reflexivity|]. apply sized_t; auto.
Qed.
Lemma sized_run : forall T (NT : Num T) (TR : Trig T) g cs k (s : mst T), sized s -> Forall s_nine cs ->
  (Exists s_bad_row cs /\ mrun g k s cs = UB) \/ (~ Exists s_bad_row cs /\ exists s', mrun g k s cs = Ret s' /\ sized s').
Proof.
  intros T NT TR g cs. induction cs as [|c cs IH]; intros k s S N; cbn [mrun]; [right; split; [intros H; inversion H|eauto]|].
  inversion N as [|? ? N1 N2]; subst. destruct (sized_step T NT TR (g k) c s S N1) as [[B E]|[B [s' [E S']]]]; rewrite E; cbn [obind]; [left; auto|].
  destruct (IH (Datatypes.S k) s' S' N2) as [[B' E']|[B' E']]; [left; auto|right]. split; auto. intros H. inversion H; subst; auto.
Qed.
(** the only undefined call is getRow outside 0..2; every other program runs, and leaves arrays of nine *)
Theorem C120_rows : forall (T : Type) (NT : Num T) (TR : Trig T) (cs : list (mcall T)) g g0, Forall s_nine cs ->
  (mrun g 0 (mstart g0) cs = UB <-> exists d m k, In (VRow d m k) cs /\ (3 <= k)%nat) /\
  ((forall d m k, In (VRow d m k) cs -> (k < 3)%nat) -> exists s, mrun g 0 (mstart g0) cs = Ret s).
Proof.
  intros T NT TR cs g g0 N. assert (S : sized (mstart g0)) by (split; intros d; cbn [mstart st_m st_t a_r]; apply raw_length).
  assert (X : Exists s_bad_row cs <-> exists d m k, In (VRow d m k) cs /\ (3 <= k)%nat).
  { rewrite Exists_exists. split; [intros [c [I B]]; destruct c; cbn in B; try contradiction; eauto|intros [d [m [k [I K]]]]; exists (VRow d m k); auto]. }
  destruct (sized_run T NT TR g cs 0 _ S N) as [[B E]|[B [s' [E _]]]]; rewrite E; split; eauto.
  - split; auto. intros _. apply X. auto.
  - intros H. apply X in B. destruct B as [d [m [k [I K]]]]. apply H in I. lia.
  - split; [discriminate|]. intros G. apply X in G. contradiction.
Qed.

(** ** a vector that is filled in by setters *)
Definition setter {T} (d : nat) (kx : nat * T) : mcall (cell T) := VSet d (fst kx) (ALit (Val (snd kx))).
Lemma upd_same : forall A (f : nat -> A) d x, upd f d x d = x.
Proof. intros. unfold upd. rewrite Nat.eqb_refl. reflexivity. Qed.
Lemma put_holds : forall A (l : list A) k x j, (k < length l)%nat -> nth_error (put l k x) j = if Nat.eqb j k then Some x else nth_error l j.
Proof. intros A l. induction l as [|y l IH]; intros [|k] x [|j] H; cbn in *; try lia; auto. apply IH. lia. Qed.
Lemma setters_run : forall T (NT : Num T) (TR : Trig T) d (sets : list (nat * T)) g k s, exists s', mrun g k s (map (setter d) sets) = Ret s' /\
  st_v s' d = fold_left (fun v kx => put v (fst kx) (Val (snd kx))) sets (st_v s d).
Proof.
  intros T NT TR d sets g. induction sets as [|[j x] sets IH]; intros k s; cbn [map mrun fold_left]; [eauto|].
  cbn [setter fst snd mstep ev obind]. destruct (IH (S k) (set_v s d (av_set (st_v s d) j (Val x)))) as [s' [E V]]. exists s'. split; auto. rewrite V. cbn [set_v st_v]. rewrite upd_same. reflexivity.
Qed.
Lemma fold_put_length : forall T (sets : list (nat * T)) v, length (fold_left (fun v kx => put v (fst kx) (Val (snd kx))) sets v) = length v.
Proof. intros T sets. induction sets as [|[j x] sets IH]; intros v; cbn [fold_left]; auto. rewrite IH, put_length. reflexivity. Qed.
Lemma fold_put_skip : forall T (sets : list (nat * T)) v k, (forall kx, In kx sets -> (fst kx < length v)%nat) -> ~ In k (map fst sets) -> nth_error (fold_left (fun v kx => put v (fst kx) (Val (snd kx))) sets v) k = nth_error v k.
Proof.
  intros T sets. induction sets as [|[j x] sets IH]; intros v k R N; cbn [fold_left]; auto. cbn [map In fst snd] in *. rewrite IH; [|intros kx I; rewrite put_length; apply R; auto|tauto].
  rewrite put_holds by (apply (R (j, x)); auto). destruct (Nat.eqb_spec k j); auto. subst. tauto.
Qed.
(** a coordinate holds the value last set, and is uninitialised until it is set *)
Theorem C120_setters : forall (T : Type) (NT : Num T) (TR : Trig T) d (sets : list (nat * T)) n s, (forall kx, In kx sets -> (fst kx < 3)%nat) ->
  exists s', mrun (fun _ _ => Uninit) n s (VDef d :: map (setter d) sets) = Ret s' /\
    (forall k x l1 l2, sets = l1 ++ (k, x) :: l2 -> ~ In k (map fst l2) -> s_holds (st_v s' d) k (Val x)) /\
    (forall k, (k < 3)%nat -> ~ In k (map fst sets) -> s_holds (st_v s' d) k Uninit) /\
    ((exists r, av_length (st_v s' d) = Val r) <-> (forall k, (k < 3)%nat -> In k (map fst sets))) /\
    (forall v : list T, length v = 3%nat -> (forall k x, s_holds v k x -> s_holds (st_v s' d) k (Val x)) -> av_length (st_v s' d) = Val (av_length v)).
Proof.
  intros T NT TR d sets n s R. cbn [mrun mstep obind]. destruct (setters_run T NT TR d sets (fun _ _ => Uninit) (S n) (set_v s d (raw (fun _ => Uninit) 0 3))) as [s' [E V]]. exists s'. split; auto.
  cbn [set_v st_v] in V. set (v0 := raw (fun _ : nat => Uninit) 0 3) in *. rewrite upd_same in V. assert (L0 : length v0 = 3%nat) by apply raw_length.
  assert (LV : length (st_v s' d) = 3%nat) by (rewrite V, fold_put_length; auto).
  assert (LAST : forall k x l1 l2, sets = l1 ++ (k, x) :: l2 -> ~ In k (map fst l2) -> s_holds (st_v s' d) k (Val x)).
  { intros k x l1 l2 -> N. unfold s_holds. rewrite V, fold_left_app. cbn [fold_left fst snd]. assert (K : (k < 3)%nat) by (apply (R (k, x)); apply in_or_app; cbn; auto).
    rewrite fold_put_skip; auto. - rewrite put_holds by (rewrite fold_put_length; lia). rewrite Nat.eqb_refl. reflexivity.
    - intros kx I. rewrite put_length, fold_put_length, L0. apply R. apply in_or_app. cbn. auto. }
  assert (NONE : forall k, (k < 3)%nat -> ~ In k (map fst sets) -> s_holds (st_v s' d) k Uninit).
  { intros k K N. unfold s_holds. rewrite V. rewrite (fold_put_skip T sets v0 k); [|intros kx I; rewrite L0; auto|exact N]. destruct k as [|[|[|k]]]; try lia; reflexivity. }
  assert (ALL : forall k, In k (map fst sets) -> exists x, s_holds (st_v s' d) k (Val x)).
  { intros k I. assert (G : exists x l1 l2, sets = l1 ++ (k, x) :: l2 /\ ~ In k (map fst l2)).
    { clear - I. induction sets as [|[j y] sets IH]; [destruct I|]. destruct (in_dec Nat.eq_dec k (map fst sets)) as [J|J].
      - destruct (IH J) as [x [l1 [l2 [-> N]]]]. exists x, ((j, y) :: l1), l2. auto.
      - destruct I as [I|I]; [|contradiction]. cbn in I. subst. exists y, [], sets. auto. }
    destruct G as [x [l1 [l2 [-> N]]]]. exists x. eapply LAST; eauto. }
  split; auto. split; auto. clear - LV NONE ALL. destruct (st_v s' d) as [|a [|b [|c [|? ?]]]]; cbn in LV; try discriminate. split.
  - split.
    + intros [r H] k K. destruct (in_dec Nat.eq_dec k (map fst sets)) as [J|J]; auto. exfalso. specialize (NONE k K J). unfold s_holds in NONE. unfold av_length, at_ in H. cbn [nth] in H.
      destruct k as [|[|[|k]]]; try lia; cbn [nth_error] in NONE; injection NONE as ->; clear - H; repeat match goal with x : cell T |- _ => destruct x end; discriminate H.
    + intros H. destruct (ALL 0%nat (H 0%nat ltac:(lia))) as [x X]. destruct (ALL 1%nat (H 1%nat ltac:(lia))) as [y Y]. destruct (ALL 2%nat (H 2%nat ltac:(lia))) as [z Z].
      unfold s_holds in *. cbn [nth_error] in X, Y, Z. injection X as ->. injection Y as ->. injection Z as ->. eexists. reflexivity.
  - intros v L H. destruct v as [|x [|y [|z [|? ?]]]]; cbn in L; try discriminate. pose proof (H 0%nat x eq_refl) as X. pose proof (H 1%nat y eq_refl) as Y. pose proof (H 2%nat z eq_refl) as Z.
    unfold s_holds in *. cbn [nth_error] in X, Y, Z. injection X as ->. injection Y as ->. injection Z as ->. reflexivity.
Qed.

(** ** a transform that only gets its angles *)
Definition angles {T} (d : nat) (a : T * T * T) : mcall (cell T) := TRpy d (ALit (Val (fst (fst a)))) (ALit (Val (snd (fst a)))) (ALit (Val (snd a))).
Lemma angles_run : forall T (NT : Num T) (TR : Trig T) d (l : list (T * T * T)) g k s, exists s', mrun g k s (map (angles d) l) = Ret s' /\
  a_o (st_t s' d) = a_o (st_t s d) /\ (forall l1 r p y, l = l1 ++ [(r, p, y)] -> length (a_r (st_t s d)) = 9%nat -> a_r (st_t s' d) = arr_rpy (repeat Uninit 9) (Val r) (Val p) (Val y)) /\ (l = [] -> a_r (st_t s' d) = a_r (st_t s d)).
Proof.
  intros T NT TR d l g. induction l as [|[[r p] y] l IH]; intros k s; cbn [map mrun].
  - exists s. split; auto. split; auto. split; auto. intros l1 r p y H. destruct l1; discriminate.
  - cbn [angles fst snd mstep ev obind]. destruct (IH (S k) (set_t s d (at_rpy (st_t s d) (Val r) (Val p) (Val y)))) as [s' [E [O [A N]]]]. exists s'. split; auto.
    cbn [set_t st_t] in O, A, N. rewrite upd_same in O, A, N. cbn [at_rpy a_o a_r] in O, A, N. split; auto. split; [|discriminate].
    intros l1 r' p' y' H L. destruct l1 as [|q l1].
    + cbn in H. injection H as -> -> -> ->. rewrite N by auto. clear - L. set (a := a_r (st_t s d)) in *. clearbody a. do 9 (destruct a as [|? a]; [discriminate L|]). destruct a; [reflexivity|discriminate L].
    + cbn in H. injection H as _ H. apply (A l1); auto. rewrite rpy_length. auto.
Qed.
(** the origin of a default-constructed Transform can not be initialised by its members: applying it, inverting it or multiplying by it stays undefined *)
Theorem C120_origin : forall (T : Type) (NT : Num T) (TR : Trig T) d (l : list (T * T * T)) n s,
  exists s', mrun (fun _ _ => Uninit) n s (TDef d :: map (angles d) l) = Ret s' /\
    a_o (st_t s' d) = [Uninit; Uninit; Uninit] /\
    (forall v, at_apply (st_t s' d) v = [Uninit; Uninit; Uninit]) /\ a_o (at_inverse (st_t s' d)) = [Uninit; Uninit; Uninit] /\
    (forall u, a_o (at_mul (st_t s' d) u) = [Uninit; Uninit; Uninit] /\ a_o (at_mul u (st_t s' d)) = [Uninit; Uninit; Uninit]) /\
    ((exists m, a_r (st_t s' d) = map Val m) <-> l <> []).
Proof.
  intros T NT TR d l n s. cbn [mrun mstep obind]. destruct (angles_run T NT TR d l (fun _ _ => Uninit) (S n) (set_t s d (ATr (raw (fun _ => Uninit) 0 3) (raw (fun _ => Uninit) 3 9)))) as [s' [E [O [A N]]]].
  exists s'. split; auto. cbn [set_t st_t] in O, A, N. rewrite upd_same in O, A, N. cbn [a_o a_r] in O, A, N. change (raw (fun _ : nat => Uninit) 0 3) with [@Uninit T; Uninit; Uninit] in O.
  split; auto. assert (U : forall c : cell T, lift2 nadd c Uninit = Uninit) by (intros [c|]; reflexivity). assert (UM : forall c : cell T, lift2 nmul c Uninit = Uninit) by (intros [c|]; reflexivity).
  assert (US : forall c : cell T, lift2 nsub c Uninit = Uninit) by (intros [c|]; reflexivity).
  split; [intros v; unfold at_apply, av, at_; rewrite O; cbn [nth]; cbn [nadd NumCell]; rewrite !U; reflexivity|].
  split; [unfold at_inverse, at_; rewrite O; cbn [nth a_o]; cbn [nsub nmul nadd NumCell]; rewrite !UM, !US; reflexivity|].
  split.
  - intros u. split.
    + unfold at_mul, at_. rewrite O. cbn [nth a_o]. cbn [nadd NumCell]. rewrite !U. reflexivity.
    + unfold at_mul, at_. rewrite O. cbn [nth a_o]. cbn [nadd nmul NumCell]. rewrite !UM, !U. reflexivity.
  - split.
    + intros [m H] ->. rewrite N in H by auto. destruct m; discriminate H.
    + intros H. destruct (exists_last H) as [l1 [[[r p] y] E1]]. rewrite (A l1 r p y E1) by (apply raw_length). eexists [_; _; _; _; _; _; _; _; _]. reflexivity.
Qed.
(** so what a program gets by one more call on it is undefined: its inverse, its products, the points it moves and the origin it returns *)
Lemma mrun_app : forall (T : Type) (NT : Num T) (TR : Trig T) g (l1 l2 : list (mcall T)) k s, mrun g k s (l1 ++ l2) = let* s' := mrun g k s l1 in mrun g (k + length l1) s' l2.
Proof.
  induction l1 as [|c l1 IH]; intros l2 k s; [cbn; f_equal; lia|]. cbn [app mrun length]. destruct (mstep (g k) s c) as [s1| | |]; cbn [obind]; auto.
  rewrite IH. replace (S k + length l1)%nat with (k + S (length l1))%nat by lia. reflexivity.
Qed.
Theorem C120_spread : forall (T : Type) (NT : Num T) (TR : Trig T) d e (l : list (T * T * T)) n s,
  (forall c, c = TInv e d \/ (exists u, c = TMul e d u \/ c = TMul e u d) ->
     exists s', mrun (fun _ _ => Uninit) n s (TDef d :: map (angles d) l ++ [c]) = Ret s' /\ a_o (st_t s' e) = [Uninit; Uninit; Uninit]) /\
  (forall c, c = VOrigin e d \/ (exists v, c = VApply e d v) ->
     exists s', mrun (fun _ _ => Uninit) n s (TDef d :: map (angles d) l ++ [c]) = Ret s' /\ st_v s' e = [Uninit; Uninit; Uninit]).
Proof.
  intros T NT TR d e l n s. destruct (C120_origin T NT TR d l n s) as [s1 [E [O [AP [IN [MU _]]]]]].
  assert (G : forall c, mrun (fun _ _ => Uninit) n s (TDef d :: map (angles d) l ++ [c]) = mstep (fun _ => Uninit) s1 c).
  { intros c. change (TDef d :: map (angles d) l ++ [c]) with ((TDef d :: map (angles d) l) ++ [c]). rewrite mrun_app, E. cbn [obind mrun]. destruct (mstep _ s1 c); reflexivity. }
  split; intros c H.
  - destruct H as [->|[u [->| ->]]]; rewrite G; cbn [mstep]; (eexists; split; [reflexivity|]); cbn [set_t st_t]; rewrite upd_same; auto; apply MU.
  - destruct H as [->|[v ->]]; rewrite G; cbn [mstep]; (eexists; split; [reflexivity|]); cbn [set_v st_v]; rewrite upd_same; auto.
Qed.
(** and it matters: two runs of the same program with different storage give different points *)
Theorem C120_garbage : exists (cs : list (mcall R)) g g' s s', mrun g 0 (mstart (fun _ _ _ => 0%R)) cs = Ret s /\ mrun g' 0 (mstart (fun _ _ _ => 0%R)) cs = Ret s' /\ st_v s 0 <> st_v s' 0 /\
  cs = [TDef 0; TRpy 0 (ALit 0%R) (ALit 0%R) (ALit 0%R); VMake 0 (ALit 0%R) (ALit 0%R) (ALit 0%R); VApply 0 0 0].
Proof.
  eexists _, (fun _ _ => 0%R), (fun _ _ => 1%R), _, _. split; [|split; [|split; [|reflexivity]]]; try reflexivity.
  cbn. intros H. injection H as H _ _. revert H. unfold at_, av. cbn [nth]. rewrite !Rmult_0_r. lra.
Qed.
Example C120_nonvacuous :
  (exists s, cells [VMake 0 (ALit 1%R) (ALit 2%R) (ALit 3%R); MRpy 0 (ALit 0%R) (ALit 0%R) (ALit 1%R); TOf 0 0 0; VDef 1; VSet 1 0 (ALit 5%R); VSet 1 1 (AGet 0 2); VSet 1 2 (ALen2 0); VApply 2 0 1] = Ret s /\
     s_holds (st_v s 1) 1 (Val 3%R) /\ exists x, s_holds (st_v s 2) 2 (Val x)) /\
  (forall kx, In kx [(0%nat, 1%R); (2%nat, 5%R); (0%nat, 7%R)] -> (fst kx < 3)%nat) /\ Forall s_nine [MMake 0 (repeat (ALit 1%R) 9); VRow 0 0 2].
Proof.
  split; [eexists; split; [reflexivity|split; [reflexivity|eexists; reflexivity]]|]. split.
  - cbn. intros kx H. repeat (destruct H as [<-|H]; [cbn; lia|]). destruct H.
  - repeat constructor.
Qed.
Print Assumptions C120_independent.
Print Assumptions C120_rows.
Print Assumptions C120_setters.
Print Assumptions C120_origin.
Print Assumptions C120_garbage.
Print Assumptions C120_spread.
