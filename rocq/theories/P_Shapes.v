(** * Meshes of createCylinder and createConvexPolygon *)
From Coq Require Import ZArith NArith List Bool Lia Reals Lra.
From Verif Require Import Num MathTypes Outcome Mesh Box Spec P_Tac P_Mesh Shapes SpecShapes.
Import ListNotations.

Definition Nr (a n : nat) : list N := map N.of_nat (seq a n).
Lemma for_spec : forall (S : Type) (body : N -> S -> outcome S) (f : N -> S -> S) bound n i fuel s,
  (N.of_nat i + N.of_nat n = bound)%N -> (bound < 2 ^ 32)%N -> (n < fuel)%nat ->
  (forall k s, (N.of_nat i <= k < bound)%N -> body k s = Ret (f k s)) ->
  for_u32 fuel (N.of_nat i) bound body s = Ret (fold_left (fun s k => f k s) (Nr i n) s).
Proof.
  intros S body f bound. induction n as [|n IH]; intros i fuel s E B F H; (destruct fuel as [|fuel]; [lia|]); cbn [for_u32].
  - destruct (N.ltb_spec (N.of_nat i) bound); [lia|reflexivity].
  - destruct (N.ltb_spec (N.of_nat i) bound); [|lia]. rewrite H by lia. cbn [obind].
    replace (u32 (N.of_nat i + 1)) with (N.of_nat (Datatypes.S i)).
    + rewrite IH by (try lia; intros; apply H; lia). reflexivity.
    + unfold u32. rewrite N.mod_small; [lia|]. change 4294967296%N with (2 ^ 32)%N. lia.
Qed.
(** an empty range *)
Lemma for_nil : forall (S : Type) (body : N -> S -> outcome S) i bound fuel s, (0 < fuel)%nat -> (bound <= i)%N ->
  for_u32 fuel i bound body s = Ret s.
Proof. intros S body i bound [|f] s F B; [lia|]. cbn [for_u32]. destruct (N.ltb_spec i bound); [lia|reflexivity]. Qed.
(** a bound no counter reaches *)
Lemma for_diverges : forall (S : Type) (body : N -> S -> outcome S) bound, (2 ^ 32 <= bound)%N ->
  (forall i s, exists s', body i s = Ret s' \/ body i s = UB) ->
  forall fuel i s, (i < 2 ^ 32)%N -> for_u32 fuel i bound body s = Fuel \/ for_u32 fuel i bound body s = UB.
Proof.
  intros S body bound B H. induction fuel as [|fuel IH]; intros i s L; [left; reflexivity|]. cbn [for_u32].
  destruct (N.ltb_spec i bound); [|lia]. destruct (H i s) as [s' [-> | ->]]; cbn [obind]; [|auto]. apply IH. unfold u32. apply N.mod_lt. discriminate.
Qed.

(** the index triangles of a prism with n corners *)
Definition fan (i : nat) : list (N * N * N) :=
  let k := N.of_nat i in [(0, 2 * k, 2 * k + 2); (1, 2 * k + 3, 2 * k + 1)]%N.
Definition nxt (n i : nat) : nat := if Nat.eqb (S i) n then 0%nat else S i.
Definition side (n i : nat) : list (N * N * N) :=
  let k := N.of_nat i in let j := N.of_nat (nxt n i) in [(2 * k, 2 * k + 1, 2 * j); (2 * k + 1, 2 * j + 1, 2 * j)]%N.
Definition prism_tris (n : nat) : list (N * N * N) := flat_map fan (seq 1 (n - 2)) ++ flat_map (side n) (seq 0 n).

Lemma edges_app : forall a b, s_edges (a ++ b) = s_edges a ++ s_edges b.
Proof. induction a as [|[[i j] k] a IH]; intros b; cbn [s_edges app]; [auto|]. rewrite IH. auto. Qed.
Lemma edges_flat : forall (A : Type) (f : A -> list (N * N * N)) l, s_edges (flat_map f l) = flat_map (fun x => s_edges (f x)) l.
Proof. induction l; cbn [flat_map]; [auto|]. rewrite edges_app, IHl. auto. Qed.
Lemma nodup_app : forall (A : Type) (a b : list A), NoDup a -> NoDup b -> (forall x, In x a -> ~ In x b) -> NoDup (a ++ b).
Proof.
  induction a as [|x a IH]; intros b NA NB D; cbn [app]; [auto|]. inversion NA; subst. constructor.
  - rewrite in_app_iff. intros [H|H]; [auto|]. apply (D x); [left; auto|auto].
  - apply IH; auto. intros y Y. apply D. right. auto.
Qed.
Lemma nodup_flat : forall (A B : Type) (f : A -> list B) l, NoDup l -> (forall x, In x l -> NoDup (f x)) ->
  (forall x y b, In x l -> In y l -> In b (f x) -> In b (f y) -> x = y) -> NoDup (flat_map f l).
Proof.
  induction l as [|a l IH]; intros N F D; cbn [flat_map]; [constructor|]. inversion N; subst. apply nodup_app.
  - apply F. left. auto.
  - apply IH; auto. intros; apply F; right; auto. intros x y b X Y; apply D; right; auto.
  - intros b IB C. apply in_flat_map in C. destruct C as [y [Y C]]. assert (a = y) by (apply (D a y b); auto; [left|right]; auto). congruence.
Qed.
Lemma nxt_lt : forall n i, (i < n)%nat -> (nxt n i < n)%nat /\ ((S i < n)%nat -> nxt n i = S i) /\ (S i = n -> nxt n i = 0%nat).
Proof. intros n i L. unfold nxt. destruct (Nat.eqb_spec (S i) n); lia. Qed.
Lemma nxt_S : forall n i, (S i < n)%nat -> nxt n i = S i.
Proof. intros n i L. unfold nxt. destruct (Nat.eqb_spec (S i) n); lia. Qed.
Lemma nxt_0 : forall n, (0 < n)%nat -> nxt n (n - 1) = 0%nat.
Proof. intros n L. unfold nxt. destruct (Nat.eqb_spec (S (n - 1)) n); lia. Qed.
Definition fane (i : nat) : list (N * N) := s_edges (fan i).
Definition sidee (n i : nat) : list (N * N) := s_edges (side n i).
Lemma fane_eq : forall i, let k := N.of_nat i in
  fane i = [(0, 2 * k); (2 * k, 2 * k + 2); (2 * k + 2, 0); (1, 2 * k + 3); (2 * k + 3, 2 * k + 1); (2 * k + 1, 1)]%N.
Proof. reflexivity. Qed.
Lemma sidee_eq : forall n i, let k := N.of_nat i in let j := N.of_nat (nxt n i) in
  sidee n i = [(2 * k, 2 * k + 1); (2 * k + 1, 2 * j); (2 * j, 2 * k); (2 * k + 1, 2 * j + 1); (2 * j + 1, 2 * j); (2 * j, 2 * k + 1)]%N.
Proof. reflexivity. Qed.

Ltac inb H := repeat (destruct H as [H|H]; [|]); [..|destruct H].
Lemma in6 : forall (A : Type) (x a b c d e f : A), In x [a; b; c; d; e; f] <-> x = a \/ x = b \/ x = c \/ x = d \/ x = e \/ x = f.
Proof. intros. cbn. intuition auto. Qed.
Ltac pairs := repeat match goal with H : (_, _) = (_, _) |- _ => apply pair_equal_spec in H; destruct H end.
Lemma prism_nodup : forall n, (3 <= n)%nat -> NoDup (s_edges (prism_tris n)).
Proof.
  intros n L. unfold prism_tris. rewrite edges_app, !edges_flat. apply nodup_app.
  - apply nodup_flat; [apply seq_NoDup| |].
    + intros i I. apply in_seq in I. change (NoDup (fane i)). rewrite fane_eq. cbv zeta.
      repeat constructor; cbn [In]; intros H; repeat (destruct H as [H|H]); pairs; try lia.
    + intros i k b I K B C. apply in_seq in I, K. change (In b (fane i)) in B. change (In b (fane k)) in C. rewrite fane_eq, in6 in B, C.
      destruct B as [B|[B|[B|[B|[B|B]]]]]; rewrite B in C; destruct C as [C|[C|[C|[C|[C|C]]]]]; pairs; lia.
  - apply nodup_flat; [apply seq_NoDup| |].
    + intros i I. apply in_seq in I. destruct (nxt_lt n i) as [X1 [X2 X3]]; [lia|]. change (NoDup (sidee n i)). rewrite sidee_eq. cbv zeta.
      repeat constructor; cbn [In]; intros H; repeat (destruct H as [H|H]); pairs; try lia.
    + intros i k b I K B C. apply in_seq in I, K. change (In b (sidee n i)) in B. change (In b (sidee n k)) in C. rewrite sidee_eq, in6 in B, C.
      destruct (nxt_lt n i) as [X1 [X2 X3]]; [lia|]. destruct (nxt_lt n k) as [Y1 [Y2 Y3]]; [lia|].
      destruct B as [B|[B|[B|[B|[B|B]]]]]; rewrite B in C; destruct C as [C|[C|[C|[C|[C|C]]]]]; pairs; lia.
  - intros b B C. apply in_flat_map in B, C. destruct B as [i [I B]], C as [k [K C]]. apply in_seq in I, K.
    change (In b (fane i)) in B. change (In b (sidee n k)) in C. rewrite fane_eq, in6 in B. rewrite sidee_eq, in6 in C.
    destruct (nxt_lt n k) as [Y1 [Y2 Y3]]; [lia|].
    destruct B as [B|[B|[B|[B|[B|B]]]]]; rewrite B in C; destruct C as [C|[C|[C|[C|[C|C]]]]]; pairs; lia.
Qed.
Lemma edge_in : forall n a b, In (a, b) (s_edges (prism_tris n)) <->
  (exists i, (1 <= i < n - 1)%nat /\ In (a, b) (fane i)) \/ (exists i, (i < n)%nat /\ In (a, b) (sidee n i)).
Proof.
  intros n a b. unfold prism_tris. rewrite edges_app, in_app_iff, !edges_flat, !in_flat_map. split.
  - intros [[i [I H]]|[i [I H]]]; apply in_seq in I; [left|right]; exists i; (split; [lia|exact H]).
  - intros [[i [I H]]|[i [I H]]]; [left|right]; exists i; (split; [apply in_seq; lia|exact H]).
Qed.
Lemma prism_sym : forall n a b, (3 <= n)%nat -> In (a, b) (s_edges (prism_tris n)) -> a <> b /\ In (b, a) (s_edges (prism_tris n)).
Proof.
  intros n a b L H. apply edge_in in H.
  assert (FAN : forall i, (1 <= i < n - 1)%nat -> forall e, In e (fane i) -> In e (s_edges (prism_tris n))).
  { intros i I [x y] E. apply edge_in. left. exists i. auto. }
  assert (SD : forall i, (i < n)%nat -> forall e, In e (sidee n i) -> In e (s_edges (prism_tris n))).
  { intros i I [x y] E. apply edge_in. right. exists i. auto. }
  destruct H as [[i [I H]]|[i [I H]]].
  - rewrite fane_eq, in6 in H. destruct (nxt_lt n i) as [X1 [X2 _]]; [lia|].
    destruct H as [H|[H|[H|[H|[H|H]]]]]; pairs; subst a b; (split; [lia|]).
    + destruct (Nat.eq_dec i 1) as [->|].
      * apply (SD 0%nat); [lia|]. rewrite sidee_eq, in6. rewrite (nxt_S n 0) by lia. right; right; left. f_equal; lia.
      * apply (FAN (i - 1)%nat); [lia|]. rewrite fane_eq, in6. right; right; left. f_equal; lia.
    + apply (SD i); [lia|]. rewrite sidee_eq, in6, X2 by lia. right; right; left. f_equal; lia.
    + destruct (Nat.eq_dec i (n - 2)) as [E|].
      * apply (SD (n - 1)%nat); [lia|]. rewrite sidee_eq, in6. rewrite nxt_0 by lia. right; right; left. f_equal; lia.
      * apply (FAN (i + 1)%nat); [lia|]. rewrite fane_eq, in6. left. f_equal; lia.
    + destruct (Nat.eq_dec i (n - 2)) as [E|].
      * apply (SD (n - 1)%nat); [lia|]. rewrite sidee_eq, in6. rewrite nxt_0 by lia. do 3 right; left. f_equal; lia.
      * apply (FAN (i + 1)%nat); [lia|]. rewrite fane_eq, in6. do 5 right. f_equal; lia.
    + apply (SD i); [lia|]. rewrite sidee_eq, in6, X2 by lia. do 3 right; left. f_equal; lia.
    + destruct (Nat.eq_dec i 1) as [->|].
      * apply (SD 0%nat); [lia|]. rewrite sidee_eq, in6. rewrite (nxt_S n 0) by lia. do 3 right; left. f_equal; lia.
      * apply (FAN (i - 1)%nat); [lia|]. rewrite fane_eq, in6. do 3 right; left. f_equal; lia.
  - rewrite sidee_eq, in6 in H. destruct (nxt_lt n i) as [X1 [X2 X3]]; [lia|]. set (j := nxt n i) in *.
    destruct H as [H|[H|[H|[H|[H|H]]]]]; pairs; subst a b; (split; [lia|]).
    + (* (2i+1, 2i) closes the previous side *)
      destruct i as [|i'].
      * apply (SD (n - 1)%nat); [lia|]. rewrite sidee_eq, in6. rewrite nxt_0 by lia. do 4 right; left. f_equal; lia.
      * apply (SD i'); [lia|]. rewrite sidee_eq, in6. rewrite (nxt_S n i') by lia. do 4 right; left. f_equal; lia.
    + apply (SD i); [lia|]. rewrite sidee_eq, in6. fold j. do 5 right. f_equal; lia.
    + destruct (Nat.eq_dec i 0) as [->|].
      * assert (E : j = 1%nat) by lia. rewrite E. apply (FAN 1%nat); [lia|]. rewrite fane_eq, in6. left. f_equal; lia.
      * destruct (Nat.eq_dec (S i) n) as [E|].
        -- rewrite X3 by auto. apply (FAN (n - 2)%nat); [lia|]. rewrite fane_eq, in6. right; right; left. f_equal; lia.
        -- rewrite X2 by lia. apply (FAN i); [lia|]. rewrite fane_eq, in6. right; left. f_equal; lia.
    + destruct (Nat.eq_dec i 0) as [->|].
      * assert (E : j = 1%nat) by lia. rewrite E. apply (FAN 1%nat); [lia|]. rewrite fane_eq, in6. do 5 right. f_equal; lia.
      * destruct (Nat.eq_dec (S i) n) as [E|].
        -- rewrite X3 by auto. apply (FAN (n - 2)%nat); [lia|]. rewrite fane_eq, in6. do 3 right; left. f_equal; lia.
        -- rewrite X2 by lia. apply (FAN i); [lia|]. rewrite fane_eq, in6. do 4 right; left. f_equal; lia.
    + apply (SD j); [lia|]. rewrite sidee_eq, in6. left. f_equal; lia.
    + apply (SD i); [lia|]. rewrite sidee_eq, in6. fold j. right; left. f_equal; lia.
Qed.
Lemma prism_closed : forall n, (3 <= n)%nat -> s_closed_surface (prism_tris n).
Proof. intros n L. split; [apply prism_nodup; auto|]. intros i j H. apply prism_sym; auto. Qed.
Lemma prism_valid : forall n, s_valid (2 * n) (prism_tris n).
Proof.
  intros n i j k H. unfold prism_tris in H. apply in_app_iff in H. rewrite !in_flat_map in H. destruct H as [[x [X H]]|[x [X H]]]; apply in_seq in X.
  - destruct H as [H|[H|[]]]; apply pair_equal_spec in H; destruct H as [H <-]; pairs; subst; lia.
  - destruct (nxt_lt n x) as [N _]; [lia|]. destruct H as [H|[H|[]]]; apply pair_equal_spec in H; destruct H as [H <-]; pairs; subst; lia.
Qed.
Lemma flat_len : forall (A B : Type) (f : A -> list B) k l, (forall x, length (f x) = k) -> length (flat_map f l) = (k * length l)%nat.
Proof. intros A B f k l H. induction l as [|a l IH]; cbn [flat_map length]; [lia|]. rewrite app_length, H, IH. lia. Qed.
Lemma prism_len : forall n, (2 <= n)%nat -> length (prism_tris n) = (4 * n - 4)%nat.
Proof. intros n L. unfold prism_tris. rewrite app_length, !(flat_len _ _ _ 2), !seq_length by reflexivity. lia. Qed.

(** ** the meshes built *)
Section Build.
  Context {T : Type} {NT : Num T} {TR : Trig T}.
  Definition prism_pts (lo hi : T) (q : list (vec2 T)) : list (vec3 T) :=
    flat_map (fun p => [V3 (v2x p) (v2y p) lo; V3 (v2x p) (v2y p) hi]) q.
  Definition is_mesh (m : mesh T) (pts : list (vec3 T)) (ts : list (N * N * N)) : Prop :=
    m_points m = pts /\ map idx (m_tris m) = ts /\ m_r m = n0 /\ m_r2 m = n0 /\ m_tc m = [].
  Lemma im_new : is_mesh mesh_new [] [].
  Proof. repeat split. Qed.
  Lemma im_pt : forall m pts ts p, is_mesh m pts ts -> is_mesh (snd (addPoint m p)) (pts ++ [p]) ts.
  Proof. intros m pts ts p [A [B _]]. repeat split; cbn; congruence. Qed.
  Lemma im_tri : forall m pts ts a b c, is_mesh m pts ts -> is_mesh (addTriangle m a b c) pts (ts ++ [(a, b, c)]).
  Proof. intros m pts ts a b c [A [B _]]. repeat split; cbn; auto. rewrite map_app, B. reflexivity. Qed.
  Lemma im_fold : forall (A : Type) (f : mesh T -> A -> mesh T) (g : A -> list (N * N * N)) l m pts ts,
    is_mesh m pts ts -> (forall m ts x, In x l -> is_mesh m pts ts -> is_mesh (f m x) pts (ts ++ g x)) ->
    is_mesh (fold_left f l m) pts (ts ++ flat_map g l).
  Proof.
    induction l as [|a l IH]; intros m pts ts I H; cbn [fold_left flat_map]; [rewrite app_nil_r; auto|].
    rewrite app_assoc. apply IH; [apply H; [left|]; auto|]. intros; apply H; [right|]; auto.
  Qed.
  Lemma im_fold_pts : forall (A : Type) (f : mesh T -> A -> mesh T) (g : A -> list (vec3 T)) l m pts ts,
    is_mesh m pts ts -> (forall m pts x, is_mesh m pts ts -> is_mesh (f m x) (pts ++ g x) ts) ->
    is_mesh (fold_left f l m) (pts ++ flat_map g l) ts.
  Proof.
    induction l as [|a l IH]; intros m pts ts I H; cbn [fold_left flat_map]; [rewrite app_nil_r; auto|].
    rewrite app_assoc. apply IH; auto.
  Qed.
  Lemma u32_small : forall n, (n < 2 ^ 32)%N -> u32 n = n.
  Proof. intros n L. unfold u32. apply N.mod_small. exact L. Qed.
  Lemma fold_Nr : forall (S : Type) (f : S -> N -> S) a n s, fold_left f (Nr a n) s = fold_left (fun s i => f s (N.of_nat i)) (seq a n) s.
  Proof. intros S f a n s. unfold Nr. revert s. induction (seq a n); intros s; cbn [map fold_left]; auto. Qed.
  Lemma next_mod : forall n i, (i < n)%nat -> (N.of_nat n <= 2 ^ 31)%N -> N.modulo (u32 (N.of_nat i + 1)) (N.of_nat n) = N.of_nat (nxt n i).
  Proof.
    intros n i L S. rewrite u32_small by lia. unfold nxt. destruct (Nat.eqb_spec (Datatypes.S i) n) as [E|E].
    - replace (N.of_nat i + 1)%N with (N.of_nat n) by lia. rewrite N.mod_same by lia. reflexivity.
    - rewrite N.mod_small by lia. lia.
  Qed.

  Definition cyl_pts (radius : T) (n : nat) : list (vec2 T) :=
    map (fun i => let a := ndiv (nmul (nmul n2 npi) (nofZ (Z.of_N (N.of_nat i)))) (nofZ (Z.of_N (N.of_nat n))) in V2 (nmul (nsin a) radius) (nmul (ncos a) radius)) (seq 0 n).
  Lemma cyl_mesh : forall fuel s radius height n, (2 <= n)%nat -> (N.of_nat n <= 2 ^ 31)%N -> (n < fuel)%nat ->
    exists m, createCylinder fuel s radius height (N.of_nat n) = Ret (shape_setMesh s m) /\
      is_mesh m (prism_pts (ndiv (nopp height) n2) (ndiv height n2) (cyl_pts radius n)) (prism_tris n).
  Proof.
    intros fuel s radius height n L2 LN F. unfold createCylinder.
    rewrite (for_spec _ _ (fun i m => cyl_corner radius height (N.of_nat n) i m) _ n 0%nat) by (auto; lia). cbn [obind].
    replace (u32 (N.of_nat n + 4294967295)) with (N.of_nat (n - 1)).
    2:{ unfold u32. replace (N.of_nat n + 4294967295)%N with (N.of_nat (n - 1) + 1 * 4294967296)%N by lia.
        rewrite N.mod_add by discriminate. rewrite N.mod_small; [reflexivity|]. change 4294967296%N with (2 * 2 ^ 31)%N. lia. }
    rewrite (for_spec _ _ (fun i m => addTriangle (addTriangle m 0 (u32 (2 * i)) (u32 (u32 (2 * i) + 2))) 1 (u32 (u32 (2 * i) + 3)) (u32 (u32 (2 * i) + 1)))
      _ (n - 2)%nat 1%nat) by (auto; lia). cbn [obind].
    rewrite (for_spec _ _ (fun i m => let j := N.modulo (u32 (i + 1)) (N.of_nat n) in
       addTriangle (addTriangle m (u32 (i * 2)) (u32 (u32 (i * 2) + 1)) (u32 (j * 2))) (u32 (u32 (i * 2) + 1)) (u32 (u32 (j * 2) + 1)) (u32 (j * 2)))
      _ n 0%nat) by (auto; lia). cbn [obind].
    eexists. split; [reflexivity|]. unfold prism_tris. rewrite !fold_Nr.
    assert (P : is_mesh (fold_left (fun m i => cyl_corner radius height (N.of_nat n) (N.of_nat i) m) (seq 0 n) mesh_new)
      (prism_pts (ndiv (nopp height) n2) (ndiv height n2) (cyl_pts radius n)) []).
    { unfold prism_pts, cyl_pts. rewrite flat_map_concat_map, map_map, <- flat_map_concat_map. change (flat_map ?f ?l) with ([] ++ flat_map f l).
      apply im_fold_pts; [apply im_new|]. intros m pts i I. cbn [v2x v2y]. unfold cyl_corner.
      eapply im_pt in I. eapply im_pt in I. rewrite <- app_assoc in I. exact I. }
    apply im_fold.
    - change (flat_map fan (seq 1 (n - 2))) with ([] ++ flat_map fan (seq 1 (n - 2))). apply im_fold; auto.
      intros m ts i I M. apply in_seq in I. rewrite (u32_small (2 * _)) by lia. rewrite !u32_small by lia.
      change (fan i) with ([nth 0 (fan i) (0, 0, 0)%N] ++ [nth 1 (fan i) (0, 0, 0)%N]). rewrite app_assoc. apply im_tri, im_tri. exact M.
    - intros m ts i I M. apply in_seq in I. cbv zeta. rewrite next_mod by (auto; lia). destruct (nxt_lt n i) as [X _]; [lia|].
      rewrite !(u32_small (_ * 2)) by lia. rewrite !u32_small by lia.
      change (side n i) with ([nth 0 (side n i) (0, 0, 0)%N] ++ [nth 1 (side n i) (0, 0, 0)%N]). cbn [nth side]. rewrite !(N.mul_comm 2), app_assoc.
      apply im_tri, im_tri. exact M.
  Qed.
  Lemma poly_mesh : forall fuel s q height, let n := length q in (2 <= n)%nat -> (N.of_nat n <= 2 ^ 30)%N -> (n < fuel)%nat ->
    exists m, createConvexPolygon fuel s q height = Ret (shape_setMesh s m) /\
      is_mesh m (prism_pts (ndiv (nopp height) n2) (ndiv height n2) q) (prism_tris n).
  Proof.
    intros fuel s q height n L2 LN F. unfold createConvexPolygon. fold n.
    replace (N.modulo (N.of_nat n + 18446744073709551615) 18446744073709551616) with (N.of_nat (n - 1)).
    2:{ replace (N.of_nat n + 18446744073709551615)%N with (N.of_nat (n - 1) + 1 * 18446744073709551616)%N by lia.
        rewrite N.mod_add by discriminate. rewrite N.mod_small; [reflexivity|]. change 18446744073709551616%N with (2 ^ 34 * 2 ^ 30)%N. lia. }
    rewrite (for_spec _ _ (fun i m => addTriangle (addTriangle m 0 (u32 (2 * i)) (u32 (u32 (2 * i) + 2))) 1 (u32 (u32 (2 * i) + 3)) (u32 (u32 (2 * i) + 1)))
      _ (n - 2)%nat 1%nat); try lia.
    2:{ intros k m K. rewrite (u32_small (2 * k)) by lia. destruct (N.eqb_spec (2 * k) 2147483646) as [E|E]; [|reflexivity].
        change 2147483646%N with (2 * (2 ^ 30 - 1))%N in E. lia. }
    cbn [obind].
    rewrite (for_spec _ _ (fun i m => let j := N.modulo (u32 (i + 1)) (N.of_nat n) in
       addTriangle (addTriangle m (u32 (i * 2)) (u32 (u32 (i * 2) + 1)) (u32 (j * 2))) (u32 (u32 (i * 2) + 1)) (u32 (u32 (j * 2) + 1)) (u32 (j * 2)))
      _ n 0%nat); try lia.
    2:{ intros k m K. cbv zeta. destruct (N.leb_spec 1073741824 (N.modulo (u32 (k + 1)) (N.of_nat n))) as [E|E]; [|reflexivity].
        pose proof (N.mod_lt (u32 (k + 1)) (N.of_nat n)) as B. change 1073741824%N with (2 ^ 30)%N in E. lia. }
    cbn [obind]. eexists. split; [reflexivity|]. unfold prism_tris. rewrite !fold_Nr.
    assert (P : is_mesh (fold_left (poly_corner (ndiv (nopp height) n2) (ndiv height n2)) q mesh_new)
      (prism_pts (ndiv (nopp height) n2) (ndiv height n2) q) []).
    { unfold prism_pts. change (flat_map ?f ?l) with ([] ++ flat_map f l).
      apply im_fold_pts; [apply im_new|]. intros m pts p I. unfold poly_corner.
      eapply im_pt in I. eapply im_pt in I. rewrite <- app_assoc in I. exact I. }
    apply im_fold.
    - change (flat_map fan (seq 1 (n - 2))) with ([] ++ flat_map fan (seq 1 (n - 2))). apply im_fold; auto.
      intros m ts i I M. apply in_seq in I. rewrite (u32_small (2 * _)) by lia. rewrite !u32_small by lia.
      change (fan i) with ([nth 0 (fan i) (0, 0, 0)%N] ++ [nth 1 (fan i) (0, 0, 0)%N]). rewrite app_assoc. apply im_tri, im_tri. exact M.
    - intros m ts i I M. apply in_seq in I. cbv zeta. rewrite next_mod by (auto; lia). destruct (nxt_lt n i) as [X _]; [lia|].
      rewrite !(u32_small (_ * 2)) by lia. rewrite !u32_small by lia.
      change (side n i) with ([nth 0 (side n i) (0, 0, 0)%N] ++ [nth 1 (side n i) (0, 0, 0)%N]). cbn [nth side]. rewrite !(N.mul_comm 2), app_assoc.
      apply im_tri, im_tri. exact M.
  Qed.
End Build.

(** ** geometry over the reals *)
Local Open Scope R_scope.
Definition d2 : vec2 R := V2 0 0.
Definition up (z : R) (p : vec2 R) : vec3 R := V3 (v2x p) (v2y p) z.
Section Geo.
  Variables (lo hi : R) (q : list (vec2 R)).
  Notation n := (length q).
  Notation qi i := (nth i q d2).
  Lemma prism_nth : forall q i p, nth_error q i = Some p ->
    s_nth (prism_pts lo hi q) (2 * i) = Some (up lo p) /\ s_nth (prism_pts lo hi q) (2 * i + 1) = Some (up hi p).
  Proof.
    induction q0 as [|a r IH]; intros i p H; [destruct i; discriminate|]. destruct i as [|i]; cbn [nth_error] in H.
    - injection H as ->. split; reflexivity.
    - destruct (IH i p H) as [A B]. replace (2 * S i)%nat with (S (S (2 * i))) by lia. replace (S (S (2 * i)) + 1)%nat with (S (S (2 * i + 1))) by lia.
      cbn [prism_pts flat_map app s_nth]. auto.
  Qed.
  Lemma prism_at : forall i, (i < n)%nat -> s_nth (prism_pts lo hi q) (2 * i) = Some (up lo (qi i)) /\ s_nth (prism_pts lo hi q) (2 * i + 1) = Some (up hi (qi i)).
  Proof. intros i L. apply prism_nth. apply nth_error_nth'. auto. Qed.
  Lemma prism_pts_len : length (prism_pts lo hi q) = (2 * n)%nat.
  Proof. unfold prism_pts. apply flat_len. auto. Qed.
  Lemma prism_pts_in : forall v, In v (prism_pts lo hi q) -> exists p, In p q /\ (v = up lo p \/ v = up hi p).
  Proof. intros v H. apply in_flat_map in H. destruct H as [p [P [H|[H|[]]]]]; exists p; auto. Qed.

  Definition fanT (i : nat) := [(up lo (qi 0), up lo (qi i), up lo (qi (S i))); (up hi (qi 0), up hi (qi (S i)), up hi (qi i))].
  Definition sideT (i : nat) := let j := nxt n i in [(up lo (qi i), up hi (qi i), up lo (qi j)); (up hi (qi i), up hi (qi j), up lo (qi j))].
  Lemma soup_flat : forall (A : Type) (pts : list (vec3 R)) (f : A -> list (N * N * N)) g l, (forall x, In x l -> s_soup pts (f x) = Some (g x)) ->
    s_soup pts (flat_map f l) = Some (flat_map g l).
  Proof.
    induction l as [|a l IH]; intros H; cbn [flat_map]; [reflexivity|]. rewrite soup_app_ts, H by (left; auto). rewrite IH; [reflexivity|].
    intros; apply H; right; auto.
  Qed.
  Lemma soup_two : forall (pts : list (vec3 R)) (i j k i' j' k' : N) a b c a' b' c',
    s_nth pts (N.to_nat i) = Some a -> s_nth pts (N.to_nat j) = Some b -> s_nth pts (N.to_nat k) = Some c ->
    s_nth pts (N.to_nat i') = Some a' -> s_nth pts (N.to_nat j') = Some b' -> s_nth pts (N.to_nat k') = Some c' ->
    s_soup pts [(i, j, k); (i', j', k')] = Some [(a, b, c); (a', b', c')].
  Proof. intros. cbn [s_soup]. rewrite H, H0, H1, H2, H3, H4. reflexivity. Qed.
  Lemma prism_soup : (2 <= n)%nat -> s_soup (prism_pts lo hi q) (prism_tris n) = Some (flat_map fanT (seq 1 (n - 2)) ++ flat_map sideT (seq 0 n)).
  Proof.
    intros L. assert (E : forall i k, (i < n)%nat -> N.to_nat k = (2 * i)%nat -> s_nth (prism_pts lo hi q) (N.to_nat k) = Some (up lo (qi i))).
    { intros i k I ->. apply prism_at. auto. }
    assert (O : forall i k, (i < n)%nat -> N.to_nat k = (2 * i + 1)%nat -> s_nth (prism_pts lo hi q) (N.to_nat k) = Some (up hi (qi i))).
    { intros i k I ->. apply prism_at. auto. }
    unfold prism_tris. rewrite soup_app_ts.
    rewrite (soup_flat _ _ fan fanT), (soup_flat _ _ (side n) sideT); [reflexivity| |]; intros i I; apply in_seq in I.
    - destruct (nxt_lt n i) as [X _]; [lia|]. apply soup_two; (apply E || apply O); try assumption; lia.
    - apply soup_two; (apply E || apply O); lia.
  Qed.
  Lemma vol_app : forall a b, s_volume6 (a ++ b) = s_volume6 a + s_volume6 b.
  Proof. induction a as [|[[x y] z] a IH]; intros b; cbn [app s_volume6]; [lra|]. rewrite IH. lra. Qed.
  Definition sumf (f : nat -> R) (l : list nat) : R := fold_right (fun i s => f i + s) 0 l.
  Lemma vol_flat : forall (g : nat -> list (vec3 R * vec3 R * vec3 R)) l, s_volume6 (flat_map g l) = sumf (fun i => s_volume6 (g i)) l.
  Proof. induction l; cbn [flat_map sumf fold_right]; [reflexivity|]. rewrite vol_app, IHl. reflexivity. Qed.
  Definition cr (i j : nat) : R := s_cross2 (qi i) (qi j).
  Lemma fan_vol : forall i, s_volume6 (fanT i) = (lo - hi) * (cr 0 i + cr i (S i) - cr 0 (S i)).
  Proof. intros i. unfold fanT, up, cr, s_cross2. cbn [s_volume6]. unfold s_det. cbn [vx vy vz]. ring. Qed.
  Lemma side_vol : forall i, s_volume6 (sideT i) = 2 * (lo - hi) * cr i (nxt n i).
  Proof. intros i. unfold sideT, up, cr, s_cross2. cbn [s_volume6]. unfold s_det. cbn [vx vy vz]. ring. Qed.
  Lemma sum_ext : forall f g l, (forall i, In i l -> f i = g i) -> sumf f l = sumf g l.
  Proof. induction l; intros H; cbn [sumf fold_right]; [reflexivity|]. fold (sumf f l) (sumf g l). rewrite H, IHl; [reflexivity| |left; auto]. intros; apply H; right; auto. Qed.
  Lemma sum_scale : forall k f l, sumf (fun i => k * f i) l = k * sumf f l.
  Proof. induction l; cbn [sumf fold_right]; [ring|]. fold (sumf f l) (sumf (fun i => k * f i) l). rewrite IHl. ring. Qed.
  Lemma sum_app : forall f a b, sumf f (a ++ b) = sumf f a + sumf f b.
  Proof.
    induction a as [|x a IH]; intros b; [change (sumf f b = 0 + sumf f b); ring|].
    change (f x + sumf f (a ++ b) = f x + sumf f a + sumf f b). rewrite IH. ring.
  Qed.
  Lemma fan_tel : forall k, sumf (fun i => cr 0 i + cr i (S i) - cr 0 (S i)) (seq 1 k) = cr 0 1 - cr 0 (S k) + sumf (fun i => cr i (S i)) (seq 1 k).
  Proof.
    induction k as [|k IH]; [cbn; lra|]. rewrite seq_S, !sum_app, IH. cbn [sumf fold_right Nat.add]. lra.
  Qed.
  Lemma prism_vol : (2 <= n)%nat -> s_volume6 (flat_map fanT (seq 1 (n - 2)) ++ flat_map sideT (seq 0 n)) = - 3 * (hi - lo) * sumf (fun i => cr i (nxt n i)) (seq 0 n).
  Proof.
    intros L. rewrite vol_app, !vol_flat. rewrite (sum_ext _ _ _ (fun i _ => fan_vol i)), (sum_ext _ _ (seq 0 n) (fun i _ => side_vol i)), !sum_scale, fan_tel.
    assert (SS : sumf (fun i => cr i (nxt n i)) (seq 0 n) = cr 0 1 + sumf (fun i => cr i (S i)) (seq 1 (n - 2)) + cr (n - 1) 0).
    { replace (seq 0 n) with ([0%nat] ++ seq 1 (n - 2) ++ [(n - 1)%nat]).
      - rewrite !sum_app. cbn [sumf fold_right]. rewrite nxt_S, nxt_0 by lia. fold (sumf (fun i => cr i (nxt n i)) (seq 1 (n - 2))).
        rewrite (sum_ext _ (fun i => cr i (S i)) (seq 1 (n - 2))); [unfold sumf; lra|]. intros i I. apply in_seq in I. rewrite nxt_S by lia. reflexivity.
      - replace n with (1 + ((n - 2) + 1))%nat at 3 by lia. rewrite seq_app. cbn [seq app Nat.add]. f_equal. rewrite seq_app. cbn [seq app].
        replace (1 + (n - 2))%nat with (n - 1)%nat by lia. reflexivity. }
    rewrite SS. replace (S (n - 2)) with (n - 1)%nat by lia.
    assert (A : cr 0 (n - 1) = - cr (n - 1) 0) by (unfold cr, s_cross2; ring). rewrite A. ring.
  Qed.
End Geo.
Lemma cyclic_map : forall q : list (vec2 R), s_cyclic q = map (fun i => (nth i q d2, nth (nxt (length q) i) q d2)) (seq 0 (length q)).
Proof.
  intros q. destruct q as [|a r]; [reflexivity|]. unfold s_cyclic. set (l := a :: r).
  assert (L1 : length (combine l (r ++ [a])) = length l) by (rewrite combine_length, app_length; unfold l; cbn [length]; lia).
  apply (nth_ext _ _ (d2, d2) (d2, d2)); [rewrite map_length, seq_length; auto|].
  intros i I. rewrite L1 in I. rewrite combine_nth by (rewrite app_length; unfold l; cbn [length]; lia).
  set (F := fun i : nat => (nth i l d2, nth (nxt (length l) i) l d2)).
  rewrite (nth_indep (map F (seq 0 (length l))) (d2, d2) (F 0%nat)) by (rewrite map_length, seq_length; auto).
  rewrite map_nth, seq_nth by auto. unfold F. cbn [Nat.add]. f_equal. unfold nxt. destruct (Nat.eqb_spec (S i) (length l)) as [E|E].
  - rewrite app_nth2 by (unfold l in E; cbn [length] in E; lia). unfold l in E. cbn [length] in E. replace (i - length r)%nat with 0%nat by lia. reflexivity.
  - rewrite app_nth1 by (unfold l in *; cbn [length] in *; lia). reflexivity.
Qed.
Lemma area2_sum : forall q, s_area2 q = sumf (fun i => cr q i (nxt (length q) i)) (seq 0 (length q)).
Proof.
  intros q. unfold s_area2. rewrite cyclic_map. generalize (seq 0 (length q)). induction l; cbn [map fold_right sumf fst snd]; [reflexivity|].
  rewrite IHl. reflexivity.
Qed.
(** every triangle supports the solid *)
Lemma prism_support : forall lo hi q, lo <= hi -> (2 <= length q)%nat -> s_convex_cw q ->
  forall a b c, In (a, b, c) (flat_map (fanT lo hi q) (seq 1 (length q - 2)) ++ flat_map (sideT lo hi q) (seq 0 (length q))) ->
  forall v, In v (prism_pts lo hi q) -> s_not_front a b c v.
Proof.
  intros lo hi q LH L CV a b c I v V. apply prism_pts_in in V. destruct V as [p [P V]].
  assert (C : forall i k, (i < length q)%nat -> In k q -> s_cross2 (s_diff2 (nth (nxt (length q) i) q d2) (nth i q d2)) (s_diff2 k (nth i q d2)) <= 0).
  { intros i k H K. apply CV; auto. rewrite cyclic_map. apply in_map_iff. exists i. split; auto. apply in_seq. lia. }
  apply in_app_iff in I. rewrite !in_flat_map in I. destruct I as [[i [I H]]|[i [I H]]]; apply in_seq in I.
  - assert (X := C i (nth 0 q d2) ltac:(lia) ltac:(apply nth_In; lia)). rewrite nxt_S in X by lia. unfold s_cross2, s_diff2 in X. cbn [v2x v2y] in X.
    unfold fanT in H. destruct H as [H|[H|[]]]; injection H as <- <- <-; unfold s_not_front, s_det, s_diff, up; cbn [vx vy vz].
    + destruct V as [-> | ->]; unfold up; cbn [vx vy vz]; [lra|]. nra.
    + destruct V as [-> | ->]; unfold up; cbn [vx vy vz]; [|lra]. nra.
  - assert (X := C i p ltac:(lia) P). unfold s_cross2, s_diff2 in X. cbn [v2x v2y] in X.
    unfold sideT in H. destruct H as [H|[H|[]]]; injection H as <- <- <-; unfold s_not_front, s_det, s_diff, up; cbn [vx vy vz];
      (destruct V as [-> | ->]; unfold up; cbn [vx vy vz]; nra).
Qed.

(** ** the regular polygon *)
Section Reg.
  Variables (n : nat) (r : R).
  Hypothesis N1 : (1 <= n)%nat.
  Definition th (x : R) : R := 2 * PI * x / INR n.
  Definition rp (x : R) : vec2 R := V2 (sin (th x) * r) (cos (th x) * r).
  Lemma INRn : 0 < INR n. Proof. apply lt_0_INR. lia. Qed.
  Lemma reg_len : length (s_regular n r) = n.
  Proof. unfold s_regular. rewrite map_length, seq_length. auto. Qed.
  Lemma reg_nth : forall i, (i < n)%nat -> nth i (s_regular n r) d2 = rp (INR i).
  Proof.
    intros i L. unfold s_regular. set (F := fun i : nat => _). rewrite (nth_indep _ d2 (F 0%nat)) by (rewrite map_length, seq_length; auto).
    rewrite map_nth, seq_nth by auto. reflexivity.
  Qed.
  Lemma rp_period : rp (INR n) = rp (INR 0).
  Proof.
    unfold rp, th. pose proof INRn. replace (2 * PI * INR n / INR n) with (0 + 2 * INR 1 * PI) by (simpl; field; lra).
    rewrite sin_period, cos_period. simpl (INR 0). replace (2 * PI * 0 / INR n) with 0 by (field; lra). reflexivity.
  Qed.
  Lemma reg_next : forall i, (i < n)%nat -> nth (nxt n i) (s_regular n r) d2 = rp (INR i + 1).
  Proof.
    intros i L. destruct (nxt_lt n i L) as [A [B C]]. rewrite reg_nth by auto. rewrite <- S_INR. destruct (Nat.eq_dec (S i) n) as [E|E].
    - rewrite C by auto. rewrite E. symmetry. apply rp_period.
    - rewrite B by lia. reflexivity.
  Qed.
  Lemma reg_area : s_area2 (s_regular n r) = - (INR n * (r * r) * sin (2 * PI / INR n)).
  Proof.
    pose proof INRn. rewrite area2_sum, reg_len. rewrite (sum_ext _ (fun _ => - (r * r) * sin (2 * PI / INR n))).
    - assert (K : forall c l, sumf (fun _ => c) l = INR (length l) * c).
      { clear. intros c. induction l as [|x l IH]; [cbn; ring|]. change (c + sumf (fun _ => c) l = INR (S (length l)) * c). rewrite IH, S_INR. ring. }
      rewrite K, seq_length. ring.
    - intros i I. apply in_seq in I. unfold cr. rewrite reg_nth, reg_next by lia. unfold s_cross2, rp. cbn [v2x v2y].
      replace (sin (2 * PI / INR n)) with (- sin (th (INR i) - th (INR i + 1))).
      + rewrite sin_minus. ring.
      + rewrite <- sin_neg. f_equal. unfold th. field. lra.
  Qed.
  Lemma cross_id : forall a b c, (sin b - sin a) * (cos c - cos a) - (cos b - cos a) * (sin c - sin a) = - 4 * sin ((b - a) / 2) * sin ((c - a) / 2) * sin ((c - b) / 2).
  Proof.
    intros a b c. set (x := a / 2). set (y := b / 2). set (z := c / 2).
    replace a with (2 * x) by (unfold x; field). replace b with (2 * y) by (unfold y; field). replace c with (2 * z) by (unfold z; field).
    replace ((2 * y - 2 * x) / 2) with (y - x) by field. replace ((2 * z - 2 * x) / 2) with (z - x) by field. replace ((2 * z - 2 * y) / 2) with (z - y) by field.
    rewrite !sin_minus, !sin_2a, !cos_2a. clearbody x y z. clear.
    pose proof (sin2_cos2 x) as A. pose proof (sin2_cos2 y) as B. pose proof (sin2_cos2 z) as C. unfold Rsqr in *.
    set (s1 := sin x) in *. set (c1 := cos x) in *. set (s2 := sin y) in *. set (c2 := cos y) in *. set (s3 := sin z) in *. set (c3 := cos z) in *.
    clearbody s1 c1 s2 c2 s3 c3.
    assert (A' : c1 * c1 = 1 - s1 * s1) by lra. assert (B' : c2 * c2 = 1 - s2 * s2) by lra. assert (C' : c3 * c3 = 1 - s3 * s3) by lra.
    rewrite A', B', C'. ring [A' B' C'].
  Qed.
  Lemma sin_pm : forall m : R, 0 <= m <= INR n -> 0 <= sin (PI * m / INR n).
  Proof.
    intros m [A B]. pose proof INRn. pose proof PI_RGT_0. apply sin_ge_0.
    - apply Rmult_le_reg_r with (INR n); auto. unfold Rdiv. rewrite Rmult_assoc, Rinv_l by lra. nra.
    - apply Rmult_le_reg_r with (INR n); auto. unfold Rdiv. rewrite Rmult_assoc, Rinv_l by lra. nra.
  Qed.
  Lemma reg_convex : s_convex_cw (s_regular n r).
  Proof.
    intros a b p AB P. rewrite cyclic_map, reg_len in AB. apply in_map_iff in AB. destruct AB as [i [E I]]. apply in_seq in I. injection E as <- <-.
    apply In_nth with (d := d2) in P. destruct P as [k [K <-]]. rewrite reg_len in K. rewrite !reg_next by lia. rewrite !reg_nth by lia.
    unfold s_cross2, s_diff2, rp. cbn [v2x v2y]. pose proof INRn as NP. pose proof (cross_id (th (INR i)) (th (INR i + 1)) (th (INR k))) as C.
    set (S1 := sin ((th (INR i + 1) - th (INR i)) / 2)) in *. set (S2 := sin ((th (INR k) - th (INR i)) / 2)) in *. set (S3 := sin ((th (INR k) - th (INR i + 1)) / 2)) in *.
    assert (P1 : 0 <= S1).
    { unfold S1. replace ((th (INR i + 1) - th (INR i)) / 2) with (PI * 1 / INR n) by (unfold th; field; lra). apply sin_pm. split; [lra|]. change 1 with (INR 1). apply le_INR. auto. }
    assert (P2 : 0 <= S2 * S3).
    { unfold S2, S3. destruct (le_lt_dec (S i) k) as [L|L].
      - apply Rmult_le_pos.
        + replace ((th (INR k) - th (INR i)) / 2) with (PI * INR (k - i) / INR n) by (rewrite minus_INR by lia; unfold th; field; lra).
          apply sin_pm. split; [apply pos_INR|apply le_INR; lia].
        + replace ((th (INR k) - th (INR i + 1)) / 2) with (PI * INR (k - S i) / INR n) by (rewrite minus_INR, S_INR by lia; unfold th; field; lra).
          apply sin_pm. split; [apply pos_INR|apply le_INR; lia].
      - replace ((th (INR k) - th (INR i)) / 2) with (- (PI * INR (i - k) / INR n)) by (rewrite minus_INR by lia; unfold th; field; lra).
        replace ((th (INR k) - th (INR i + 1)) / 2) with (- (PI * INR (S i - k) / INR n)) by (rewrite minus_INR, S_INR by lia; unfold th; field; lra).
        rewrite !sin_neg. rewrite Rmult_opp_opp. apply Rmult_le_pos; apply sin_pm; (split; [apply pos_INR|apply le_INR; lia]). }
    assert (P3 : 0 <= S1 * (S2 * S3)) by (apply Rmult_le_pos; auto).
    match goal with |- ?g <= 0 => replace g with (- (r * r) * (4 * (S1 * (S2 * S3)))) end.
    - assert (0 <= r * r) by nra. nra.
    - transitivity ((r * r) * (- 4 * S1 * S2 * S3)); [ring|]. rewrite <- C. ring.
  Qed.
  Lemma cyl_pts_reg : cyl_pts r n = s_regular n r.
  Proof.
    unfold cyl_pts, s_regular. apply map_ext. intros i. unfold n2. cbn [nmul ndiv nofZ nsin ncos npi NumR TrigR]. rewrite !nat_N_Z, <- !INR_IZR_INZ. reflexivity.
  Qed.
End Reg.
