(** Containment when the segment passes exactly through edges and corners: adding up the triangles *)
From Coq Require Import ZArith NArith List Bool Lia Reals Lra Psatz Permutation.
From Verif Require Import Num MathTypes Outcome Mesh Box Spec P_Tac P_Math P_Mesh P_MeshGeo ShapeQuery SpecQuery SpecEdge P_Query P_Query2 P_Query3 P_Query5 P_Edge.
Import ListNotations.
Local Open Scope R_scope.

Definition run_acts (acts : list act) (h : hits) : hits := fold_left (fun h a => apply_act a h) acts h.
Definition acts_of (p q : vec3 R) (ixs : list (N * N * N)) (l : list triple) : list act := map (fun x => act_of p q (fst x) (snd x)) (combine ixs l).
Lemma loop_tame : forall pts (p q : vec3 R), p <> q -> forall ts l h, s_soup pts (map idx ts) = Some l -> (forall t, In t l -> s_tame p q t) ->
  contains_loop pts p q ts h = Ret (Z.eqb (h_count (run_acts (acts_of p q (map idx ts) l) h)) 1).
Proof.
  intros pts p q PQ. induction ts as [|t ts IH]; intros l h S G.
  - injection S as <-. cbn [contains_loop map acts_of combine run_acts fold_left]. f_equal.
    destruct (Z.ltb_spec (h_count h) 0), (Z.ltb_spec 1 (h_count h)), (Z.ltb_spec 0 (h_count h)), (Z.eqb_spec (h_count h) 1); cbn; try reflexivity; lia.
  - change (map idx (t :: ts)) with (idx t :: map idx ts) in *. unfold idx in S at 1. cbn [s_soup] in S.
    destruct (s_nth pts (N.to_nat (ti1 t))) as [a|] eqn:E1; [|discriminate]. destruct (s_nth pts (N.to_nat (ti2 t))) as [b|] eqn:E2; [|discriminate].
    destruct (s_nth pts (N.to_nat (ti3 t))) as [c|] eqn:E3; [|discriminate]. destruct (s_soup pts (map idx ts)) as [r|] eqn:E4; [|discriminate]. injection S as <-.
    rewrite s_nth_nth_error in E1, E2, E3. cbn [contains_loop]. rewrite (tri_tame pts p q t h a b c PQ E1 E2 E3 (G _ (or_introl eq_refl))). cbn [obind].
    rewrite (IH r _ eq_refl) by (intros; apply G; right; auto). reflexivity.
Qed.

(** ** sums over the keys *)
Definition foldm (m : Z) (ds : list Z) : Z := fold_left (fun m d => if Z.eqb m d then m else (m + d)%Z) ds m.
Definition ekey (i j : N) : N * N := (klo i j, kgap i j).
Definition eqk (x y : N * N) : bool := N.eqb (fst x) (fst y) && N.eqb (snd x) (snd y).
Lemma eqk_spec : forall x y, eqk x y = true <-> x = y.
Proof. intros [a b] [c d]. unfold eqk. cbn [fst snd]. rewrite andb_true_iff, !N.eqb_eq. split; [intros [-> ->]; auto|intros E; injection E; auto]. Qed.
Definition edge_acts (k : N * N) (acts : list act) : list (N * N * Z) :=
  flat_map (fun a => match a with AEdge i j d => if eqk (ekey i j) k then [(i, j, d)] else [] | _ => [] end) acts.
Definition vert_acts (v : N) (acts : list act) : list Z := flat_map (fun a => match a with AVert i d => if N.eqb i v then [d] else [] | _ => [] end) acts.
Definition gens (acts : list act) : Z := s_zsum (map (fun a => match a with AGen d => d | _ => 0%Z end) acts).
Definition edge_keys (acts : list act) : list (N * N) := flat_map (fun a => match a with AEdge i j _ => [ekey i j] | _ => [] end) acts.
Definition vert_keys (acts : list act) : list N := flat_map (fun a => match a with AVert i _ => [i] | _ => [] end) acts.

Lemma foldm_app : forall a b m, foldm m (a ++ b) = foldm (foldm m a) b.
Proof. intros. unfold foldm. apply fold_left_app. Qed.
Lemma run_edge : forall acts h k, h_edge (run_acts acts h) (fst k) (snd k) = foldm (h_edge h (fst k) (snd k)) (map snd (edge_acts k acts)).
Proof.
  induction acts as [|a acts IH]; intros h k; [reflexivity|]. cbn [run_acts fold_left] in *. change (fold_left _ acts (apply_act a h)) with (run_acts acts (apply_act a h)).
  rewrite IH. change (edge_acts k (a :: acts)) with ((match a with AEdge i j d => if eqk (ekey i j) k then [(i, j, d)] else [] | _ => [] end) ++ edge_acts k acts).
  rewrite map_app, foldm_app. f_equal. destruct a as [|d|i j d|i d]; cbn [apply_act]; try reflexivity.
  - destruct (eqk (ekey i j) k) eqn:K.
    + apply eqk_spec in K. subst k. cbn [ekey fst snd map foldm fold_left]. destruct (Z.eqb_spec (h_edge h (klo i j) (kgap i j)) d) as [E|E]; auto. cbn [h_edge]. unfold upd2. rewrite !N.eqb_refl. reflexivity.
    + cbn [map foldm fold_left]. destruct (Z.eqb _ d); auto. cbn [h_edge]. unfold upd2. destruct (N.eqb_spec (fst k) (klo i j)), (N.eqb_spec (snd k) (kgap i j)); auto. cbn [andb].
      exfalso. assert (X : eqk (ekey i j) k = true) by (apply eqk_spec; unfold ekey; destruct k; cbn in *; congruence). congruence.
  - destruct (Z.eqb _ d); reflexivity.
Qed.
Lemma run_vert : forall acts h v, h_vert (run_acts acts h) v = foldm (h_vert h v) (vert_acts v acts).
Proof.
  induction acts as [|a acts IH]; intros h v; [reflexivity|]. change (run_acts (a :: acts) h) with (run_acts acts (apply_act a h)).
  rewrite IH. change (vert_acts v (a :: acts)) with ((match a with AVert i d => if N.eqb i v then [d] else [] | _ => [] end) ++ vert_acts v acts).
  rewrite foldm_app. f_equal. destruct a as [|d|i j d|i d]; cbn [apply_act]; try reflexivity.
  - destruct (Z.eqb _ d); reflexivity.
  - destruct (N.eqb_spec i v) as [->|K].
    + cbn [foldm fold_left]. destruct (Z.eqb_spec (h_vert h v) d) as [E|E]; auto. cbn [h_vert]. unfold upd1. rewrite !N.eqb_refl. reflexivity.
    + cbn [foldm fold_left]. destruct (Z.eqb _ d); auto. cbn [h_vert]. unfold upd1. destruct (N.eqb_spec v i); congruence.
Qed.
Lemma zsum_ext : forall A (f g : A -> Z) K, (forall x, In x K -> f x = g x) -> s_zsum (map f K) = s_zsum (map g K).
Proof. intros A f g K. induction K as [|x K IH]; intros H; [reflexivity|]. cbn [map s_zsum fold_right]. rewrite H by (left; auto). f_equal. apply IH. intros; apply H; right; auto. Qed.
Lemma zsum_0 : forall A (f : A -> Z) K, (forall x, In x K -> f x = 0%Z) -> s_zsum (map f K) = 0%Z.
Proof. intros A f K. induction K as [|x K IH]; intros H; [reflexivity|]. cbn [map s_zsum fold_right]. rewrite H by (left; auto). unfold s_zsum in IH. rewrite IH; auto. intros; apply H; right; auto. Qed.
Lemma zsum_single : forall A (f : A -> Z) K x, NoDup K -> In x K -> (forall y, In y K -> y <> x -> f y = 0%Z) -> s_zsum (map f K) = f x.
Proof.
  intros A f K x ND I H. induction K as [|y K IH]; [destruct I|]. inversion ND as [|? ? NI ND' E]; subst. cbn [map s_zsum fold_right]. fold (s_zsum (map f K)). destruct I as [->|I].
  - rewrite zsum_0; [lia|]. intros z Z. apply H; [right; auto|]. intros ->. auto.
  - rewrite IH; auto. { rewrite H; [lia|left; auto|]. intros ->. auto. } intros; apply H; auto. right; auto.
Qed.
Lemma zsum_add : forall A (f g : A -> Z) K, s_zsum (map (fun x => f x + g x)%Z K) = (s_zsum (map f K) + s_zsum (map g K))%Z.
Proof. intros. apply zsum_map2. Qed.
Lemma run_count : forall K W acts h, NoDup K -> NoDup W -> incl (edge_keys acts) K -> incl (vert_keys acts) W ->
  h_count (run_acts acts h) = (h_count h + gens acts + s_zsum (map (fun k => h_edge (run_acts acts h) (fst k) (snd k) - h_edge h (fst k) (snd k)) K) +
    s_zsum (map (fun v => h_vert (run_acts acts h) v - h_vert h v) W))%Z.
Proof.
  intros K W acts h NK NW. revert h. induction acts as [|a acts IH]; intros h IK IW.
  - cbn [run_acts fold_left]. rewrite !zsum_0; try (intros; lia). cbn. lia.
  - change (run_acts (a :: acts) h) with (run_acts acts (apply_act a h)). rewrite IH.
    2: { intros x X. apply IK. unfold edge_keys. cbn [flat_map]. apply in_or_app. right. exact X. }
    2: { intros x X. apply IW. unfold vert_keys. cbn [flat_map]. apply in_or_app. right. exact X. }
    set (h1 := apply_act a h). set (h2 := run_acts acts h1).
    rewrite (zsum_ext _ (fun k => h_edge h2 (fst k) (snd k) - h_edge h (fst k) (snd k))%Z (fun k => (h_edge h2 (fst k) (snd k) - h_edge h1 (fst k) (snd k)) + (h_edge h1 (fst k) (snd k) - h_edge h (fst k) (snd k)))%Z K) by (intros; lia).
    rewrite (zsum_ext _ (fun v => h_vert h2 v - h_vert h v)%Z (fun v => (h_vert h2 v - h_vert h1 v) + (h_vert h1 v - h_vert h v))%Z W) by (intros; lia).
    rewrite !zsum_add. change (gens (a :: acts)) with ((match a with AGen d => d | _ => 0%Z end) + gens acts)%Z.
    assert (X : h_count h1 = (h_count h + (match a with AGen d => d | _ => 0%Z end) + s_zsum (map (fun k => h_edge h1 (fst k) (snd k) - h_edge h (fst k) (snd k)) K) + s_zsum (map (fun v => h_vert h1 v - h_vert h v) W))%Z); [|lia].
    unfold h1. destruct a as [|d|i j d|i d]; cbn [apply_act].
    + rewrite !zsum_0; intros; lia.
    + cbn [h_count h_edge h_vert]. rewrite !zsum_0; intros; lia.
    + destruct (Z.eqb_spec (h_edge h (klo i j) (kgap i j)) d) as [E|E]; [rewrite !zsum_0; intros; lia|]. cbn [h_count h_edge h_vert].
      rewrite (zsum_0 _ _ W) by (intros; lia). rewrite (zsum_single _ _ K (ekey i j) NK).
      * unfold ekey, upd2. cbn [fst snd]. rewrite !N.eqb_refl. cbn [andb]. lia.
      * apply IK. left. reflexivity.
      * intros [k1 k2] _ NE. unfold upd2. cbn [fst snd]. destruct (N.eqb_spec k1 (klo i j)), (N.eqb_spec k2 (kgap i j)); cbn [andb]; try lia. exfalso. apply NE. unfold ekey. congruence.
    + destruct (Z.eqb_spec (h_vert h i) d) as [E|E]; [rewrite !zsum_0; intros; lia|]. cbn [h_count h_edge h_vert].
      rewrite (zsum_0 _ _ K) by (intros; lia). rewrite (zsum_single _ _ W i NW).
      * unfold upd1. rewrite !N.eqb_refl. lia.
      * apply IW. left. reflexivity.
      * intros k _ NE. unfold upd1. destruct (N.eqb_spec k i); [congruence|lia].
Qed.
(** a sum over triangles is the sum over the keys of the sums per key *)
Lemma sum_keys : forall (f : N * N * Z -> Z) K acts, NoDup K -> incl (edge_keys acts) K ->
  s_zsum (map (fun k => s_zsum (map f (edge_acts k acts))) K) = s_zsum (map (fun a => match a with AEdge i j d => f (i, j, d) | _ => 0%Z end) acts).
Proof.
  intros f K acts NK. induction acts as [|a acts IH]; intros IK.
  - apply zsum_0. reflexivity.
  - rewrite (zsum_ext _ _ (fun k => s_zsum (map f (match a with AEdge i j d => if eqk (ekey i j) k then [(i, j, d)] else [] | _ => [] end)) + s_zsum (map f (edge_acts k acts)))%Z K).
    2: { intros k _. rewrite <- zsum_app, <- map_app. reflexivity. }
    rewrite zsum_add, IH by (intros x X; apply IK; unfold edge_keys; cbn [flat_map]; apply in_or_app; right; exact X).
    change (s_zsum (map (fun a => match a with AEdge i j d => f (i, j, d) | _ => 0%Z end) (a :: acts))) with ((match a with AEdge i j d => f (i, j, d) | _ => 0%Z end) + s_zsum (map (fun a => match a with AEdge i j d => f (i, j, d) | _ => 0%Z end) acts))%Z.
    f_equal. destruct a as [|d|i j d|i d]; try (apply zsum_0; reflexivity).
    rewrite (zsum_single _ _ K (ekey i j) NK).
    + assert (X : eqk (ekey i j) (ekey i j) = true) by (apply eqk_spec; auto). rewrite X. cbn. lia.
    + apply IK. left. reflexivity.
    + intros k _ NE. destruct (eqk (ekey i j) k) eqn:X; [apply eqk_spec in X; congruence|reflexivity].
Qed.
(** keys determine the edge *)
Lemma ekey_inj : forall i j i' j', (i < 4294967296)%N -> (j < 4294967296)%N -> (i' < 4294967296)%N -> (j' < 4294967296)%N -> i <> j -> i' <> j' ->
  ekey i j = ekey i' j' -> (i = i' /\ j = j') \/ (i = j' /\ j = i').
Proof.
  intros i j i' j' I J I' J' NE NE' E. unfold ekey in E. injection E as E1 E2. revert E1 E2. unfold kgap, klo, khi, u32.
  assert (M : forall x y, (x < y)%N -> (y < 4294967296)%N -> ((y + 4294967295 - x) mod 4294967296 = y - x - 1)%N).
  { intros x y X Y. replace (y + 4294967295 - x)%N with ((y - x - 1) + 1 * 4294967296)%N by lia. rewrite N.mod_add by lia. apply N.mod_small. lia. }
  destruct (N.ltb_spec j i), (N.ltb_spec j' i'); intros E1 E2; rewrite !M in E2 by lia; lia.
Qed.
Lemma ekey_swap : forall i j, ekey i j = ekey j i.
Proof. intros. unfold ekey, kgap, klo, khi. destruct (N.ltb_spec j i), (N.ltb_spec i j); try lia; auto. replace j with i by lia. reflexivity. Qed.
