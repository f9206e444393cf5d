(** * Proofs about concurrent const queries *)
From Coq Require Import ZArith NArith List Bool Lia.
From Verif Require Import Num MathTypes Outcome Mesh Box ShapeQuery Conc Spec NumOrd P_Mesh.
Import ListNotations.

(** ** Running alone *)
Section Alone.
  Context {T : Type} {NT : Num T}.

  Lemma run_bind : forall A B (p : prog T A) (g : A -> prog T B) s,
    run_alone (bind p g) s = let* (a, s') := run_alone p s in run_alone (g a) s'.
  Proof. induction p; intros; cbn; auto. Qed.
  Lemma set_get : forall l (s : shape T), set l (get l s) s = s.
  Proof. intros [] [[]]; reflexivity. Qed.
  Lemma set_set : forall l a b (s : shape T), set l a (set l b s) = set l a s.
  Proof. intros [] a b [[]]; reflexivity. Qed.
  Lemma get_set : forall l a (s : shape T), get l (set l a s) = a.
  Proof. intros [] a [[]]; reflexivity. Qed.
  Lemma run_sq_loop : forall pts k (s : shape T),
    run_alone (p_sq_loop pts k) s = run_alone k (set LR2 (fold_left (fun c p => nmax c (vlength2 p)) pts (get LR2 s)) s).
  Proof.
    induction pts as [|p r IH]; intros k s.
    - cbn [p_sq_loop fold_left]. rewrite set_get. auto.
    - cbn [p_sq_loop run_alone fold_left].
      change (get LR2 s) with (m_r2 (s_mesh s)). unfold nmax at 2.
      destruct (nltb (m_r2 (s_mesh s)) (vlength2 p)); cbn [run_alone]. all: rewrite IH, set_set, get_set; auto.
  Qed.
  Definition with_mesh (s : shape T) (m : mesh T) : shape T := Shape_ m (s_bbv s) (s_bbmin s) (s_bbmax s).
  Lemma run_sq : forall (m : mesh T) (s : shape T), m_points m = m_points (s_mesh s) ->
    run_alone (p_sq m) s = Ret (fst (getSquaredMaxRadius (s_mesh s)), with_mesh s (snd (getSquaredMaxRadius (s_mesh s)))).
  Proof.
    intros m [[pts ts r r2 tc] v mn mx] E. cbn [s_mesh m_points] in E. unfold p_sq, getSquaredMaxRadius. cbn [run_alone].
    change (get LR2 _) with r2 at 1. cbn [fst snd s_mesh m_r2 m_points m_tris m_r m_tc].
    destruct (neqb r2 n0) eqn:Z.
    - rewrite run_sq_loop, E. reflexivity.
    - reflexivity.
  Qed.
  Lemma run_r : forall (m : mesh T) (s : shape T), m_points m = m_points (s_mesh s) ->
    run_alone (p_r m) s = Ret (fst (getMaxRadius (s_mesh s)), with_mesh s (snd (getMaxRadius (s_mesh s)))).
  Proof.
    intros m s E. unfold p_r, getMaxRadius. cbn [run_alone]. change (get LR s) with (m_r (s_mesh s)).
    destruct (neqb (m_r (s_mesh s)) n0).
    - rewrite run_bind, run_sq by auto. cbn [obind].
      destruct (getSquaredMaxRadius (s_mesh s)) as [x m']. reflexivity.
    - cbn [run_alone]. destruct s as [[]]. reflexivity.
  Qed.
  Lemma run_tri_loop : forall pts ts k (s : shape T),
    run_alone (p_tri_loop pts ts k) s =
    let* l := build_tris pts ts (get LTC s) in run_alone k (set LTC l s).
  Proof.
    induction ts as [|t r IH]; intros k s; cbn [p_tri_loop build_tris].
    - cbn [obind]. rewrite set_get. auto.
    - destruct (point_at pts (ti1 t)) as [a|]; [|reflexivity]. destruct (point_at pts (ti2 t)) as [b|]; [|reflexivity].
      destruct (point_at pts (ti3 t)) as [c|]; [|reflexivity]. cbn [or_ub obind run_alone]. rewrite IH, get_set.
      destruct (build_tris _ _ _); cbn [obind]; rewrite ?set_set; auto.
  Qed.
  Lemma run_tri : forall (m : mesh T) (s : shape T), m_points m = m_points (s_mesh s) -> m_tris m = m_tris (s_mesh s) ->
    run_alone (p_tri m) s = let* (l, m') := getTriangles (s_mesh s) in Ret (l, with_mesh s m').
  Proof.
    intros m [[pts ts r r2 tc] v mn mx] E F. cbn [s_mesh m_points m_tris] in E, F. unfold p_tri, getTriangles. cbn [run_alone].
    change (get LTC _) with tc at 1. cbn [s_mesh m_tc m_points m_tris m_r m_r2]. destruct tc as [|t q].
    - rewrite run_tri_loop, E, F. cbn [get s_mesh m_tc]. destruct (build_tris pts ts []); reflexivity.
    - reflexivity.
  Qed.
  Lemma run_bb : forall (m : mesh T) (s : shape T), m_points m = m_points (s_mesh s) ->
    run_alone (p_bb m) s = Ret (shape_bbox s (s_mesh s)).
  Proof.
    intros m [ms v mn mx] E. cbn [s_mesh] in E. unfold p_bb, shape_bbox. rewrite E. cbn [s_bbv s_bbmin s_bbmax s_mesh].
    destruct (bb_of_points (m_points ms)) as [a b]. cbn [run_alone]. change (get LBV _) with v. destruct v; reflexivity.
  Qed.
End Alone.

(** ** Answers by points and triangles only *)
Section Coherent.
  Context {T : Type} {NT : Num T} {NO : NumOrd T}.

  (** the caches are empty or filled with the right values *)
  Definition coherent (s : shape T) : Prop :=
    cache_inv (s_mesh s) /\ (s_bbv s = true -> (s_bbmin s, s_bbmax s) = bb_of_points (m_points (s_mesh s))).
  Definition same_soup (s s' : shape T) : Prop :=
    m_points (s_mesh s') = m_points (s_mesh s) /\ m_tris (s_mesh s') = m_tris (s_mesh s).

  Definition spec_ans (pts : list (vec3 T)) (ts : list triI) (q : query (T := T)) : outcome ans :=
    let m := MkMesh pts ts n0 n0 [] in
    seq_ans (Shape_ m false (V3 n0 n0 n0) (V3 n0 n0 n0)) q.

  Lemma fresh_inv : forall pts ts, cache_inv (MkMesh pts ts n0 n0 [] : mesh T).
  Proof. intros. unfold cache_inv. cbn. auto. Qed.
  Lemma tup_inj : forall l l' : list (tri T), map tup l = map tup l' -> l = l'.
  Proof.
    induction l as [|[x y z] r IH]; intros [|[x' y' z'] r'] H; try discriminate H; auto. cbn in H.
    injection H as -> -> -> H. f_equal. auto.
  Qed.
  Lemma seq_ans_spec : forall s q, coherent s -> seq_ans s q = spec_ans (m_points (s_mesh s)) (m_tris (s_mesh s)) q.
  Proof.
    intros s q [C D]. unfold spec_ans, seq_ans. cbn [s_mesh].
    set (m0 := MkMesh (m_points (s_mesh s)) (m_tris (s_mesh s)) n0 n0 []).
    assert (I0 : cache_inv m0) by apply fresh_inv.
    assert (E2 : fst (getSquaredMaxRadius (s_mesh s)) = fst (getSquaredMaxRadius m0)) by (rewrite !getSq_spec by auto; reflexivity).
    assert (E1 : fst (getMaxRadius (s_mesh s)) = fst (getMaxRadius m0)) by (rewrite !getR_spec by auto; reflexivity).
    assert (EC : forall p, mesh_contains (s_mesh s) p = mesh_contains m0 p) by (intros; unfold mesh_contains; rewrite E1, E2; reflexivity).
    assert (ES : forall p r, mesh_sphere (s_mesh s) p r = mesh_sphere m0 p r) by (intros; unfold mesh_sphere; rewrite E1, EC; reflexivity).
    destruct q; rewrite ?E1, ?E2, ?EC, ?ES; auto.
    - pose proof (getTriangles_spec _ C) as A. pose proof (getTriangles_spec _ I0) as B.
      destruct (getTriangles (s_mesh s)) as [[l m']| | |], (getTriangles m0) as [[l' m'']| | |]; cbn [obind]; auto; try contradiction.
      + destruct A as [A _], B as [B _]. unfold m0 in B. cbn [m_points m_tris] in B. rewrite A in B. injection B as B.
        apply tup_inj in B. subst. auto.
      + destruct A as [A _]. unfold m0 in B. cbn [m_points m_tris] in B. congruence.
      + destruct B as [B _]. unfold m0 in B. cbn [m_points m_tris] in B. congruence.
    - unfold shape_bbox. cbn [s_bbv]. destruct (s_bbv s) eqn:V.
      + specialize (D eq_refl). cbn [m_points m0]. change (m_points m0) with (m_points (s_mesh s)). rewrite <- D. reflexivity.
      + change (m_points m0) with (m_points (s_mesh s)). destruct (bb_of_points (m_points (s_mesh s))). reflexivity.
  Qed.

  Lemma coh_mesh : forall s m', coherent s -> cache_inv m' -> m_points m' = m_points (s_mesh s) -> coherent (with_mesh s m').
  Proof. intros s m' [_ D] I E. split; auto. cbn. rewrite E. auto. Qed.
  Lemma sq_keeps : forall m : mesh T, m_points (snd (getSquaredMaxRadius m)) = m_points m /\ m_tris (snd (getSquaredMaxRadius m)) = m_tris m.
  Proof. intros; split; reflexivity. Qed.
  Lemma r_keeps : forall m : mesh T, m_points (snd (getMaxRadius m)) = m_points m /\ m_tris (snd (getMaxRadius m)) = m_tris m.
  Proof. intros m. unfold getMaxRadius. destruct (neqb _ _); cbn; auto. Qed.
End Coherent.

(** ** Bounds on the number of steps *)
Section Depth.
  Context {T : Type} {NT : Num T}.
  (** at most n accesses, whatever is read *)
  Fixpoint within {A} (n : nat) (p : prog T A) {struct p} : Prop :=
    match p with
    | Done _ => True
    | Bad => True
    | Rd l k => match n with O => False | S n' => forall v, within n' (k v) end
    | Wr l v k => match n with O => False | S n' => within n' k end
    | Push t k => match n with O => False | S n' => within n' k end
    end.
  Lemma within_mono : forall A (p : prog T A) n n', (n <= n')%nat -> within n p -> within n' p.
  Proof.
    induction p as [a| |l k IH|l v k IH|t k IH]; intros n n' L H; cbn in *; auto;
      (destruct n as [|n]; [contradiction|]; destruct n' as [|n']; [lia|]); try (eapply IH; [|exact H]; lia).
    intros v. eapply IH; [|apply H]. lia.
  Qed.
  Lemma within_bind : forall A B (p : prog T A) (g : A -> prog T B) n k, within n p -> (forall a, within k (g a)) -> within (n + k) (bind p g).
  Proof.
    induction p as [a| |l c IH|l v c IH|t c IH]; intros g n k H G; cbn in *; auto.
    - eapply within_mono; [|apply G]. lia.
    - destruct n as [|n]; [contradiction|]. cbn. intros v. apply IH; auto.
    - destruct n as [|n]; [contradiction|]. cbn. apply IH; auto.
    - destruct n as [|n]; [contradiction|]. cbn. apply IH; auto.
  Qed.
  Lemma within_sq_loop : forall pts (k : prog T T) n, within n k -> within (3 * length pts + n) (p_sq_loop pts k).
  Proof.
    induction pts as [|p r IH]; intros k n H; auto. cbn [length p_sq_loop].
    replace (3 * S (length r) + n)%nat with (S (S (S (3 * length r + n)))) by lia. cbn [within]. intros v.
    match goal with |- context [if ?b then _ else _] => destruct b end; cbn [within]; [|auto]. eapply within_mono; [|apply IH; exact H]. lia.
  Qed.
  Lemma within_sq : forall m : mesh T, within (3 * length (m_points m) + 2) (p_sq m).
  Proof.
    intros m. unfold p_sq. replace (3 * length (m_points m) + 2)%nat with (S (3 * length (m_points m) + 1)) by lia. cbn [within]. intros v.
    match goal with |- context [if ?b then _ else _] => destruct b end. apply within_sq_loop; cbn; auto. eapply within_mono with 1%nat; [lia|cbn; auto].
  Qed.
  Lemma within_r : forall m : mesh T, within (3 * length (m_points m) + 5) (p_r m).
  Proof.
    intros m. unfold p_r. replace (3 * length (m_points m) + 5)%nat with (S (3 * length (m_points m) + 2 + 2)) by lia. cbn [within]. intros v.
    match goal with |- context [if ?b then _ else _] => destruct b end. apply within_bind; [apply within_sq|cbn; auto]. eapply within_mono with 1%nat; [lia|cbn; auto].
  Qed.
  Lemma within_tri_loop : forall pts ts (k : prog T (list (tri T))) n, within n k -> within (length ts + n) (p_tri_loop pts ts k).
  Proof.
    induction ts as [|t r IH]; intros k n H; auto. cbn [length p_tri_loop].
    destruct (point_at pts (ti1 t)), (point_at pts (ti2 t)), (point_at pts (ti3 t)); cbn; auto.
  Qed.
  Lemma within_tri : forall m : mesh T, within (length (m_tris m) + 2) (p_tri m).
  Proof.
    intros m. unfold p_tri. replace (length (m_tris m) + 2)%nat with (S (length (m_tris m) + 1)) by lia. cbn [within]. intros v.
    destruct v. apply within_tri_loop; cbn; auto. eapply within_mono with 1%nat; [lia|cbn; auto].
  Qed.
  Lemma within_bb : forall m : mesh T, within 6 (p_bb m).
  Proof. intros m. unfold p_bb. destruct (bb_of_points _). cbn. intros []; cbn; auto. Qed.
  Lemma within_lift : forall A (o : outcome A) n, within n (lift o : prog T A).
  Proof. intros A [] n; cbn; auto. Qed.
  Lemma within_contains : forall (m : mesh T) p, within (6 * length (m_points m) + 7) (p_contains m p).
  Proof.
    intros m p. unfold p_contains. replace (6 * length (m_points m) + 7)%nat with ((3 * length (m_points m) + 2) + ((3 * length (m_points m) + 5) + 0))%nat by lia.
    apply within_bind; [apply within_sq|]. intros sq. destruct (nltb _ _); [exact I|]. apply within_bind; [apply within_r|]. intros. apply within_lift.
  Qed.
  Lemma within_sphere : forall (m : mesh T) p r, within (9 * length (m_points m) + 12) (p_sphere m p r).
  Proof.
    intros m p r. unfold p_sphere.
    replace (9 * length (m_points m) + 12)%nat with ((3 * length (m_points m) + 5) + (0 + (6 * length (m_points m) + 7)))%nat by lia.
    apply within_bind; [apply within_r|]. intros x. destruct (nltb _ _); [exact I|]. apply within_bind; [apply within_lift|].
    intros []; [exact I|apply within_contains].
  Qed.
  Definition bound (m : mesh T) : nat := (9 * length (m_points m) + length (m_tris m) + 12)%nat.
  Lemma within_query : forall (m : mesh T) q, within (bound m) (p_query m q).
  Proof.
    intros m q. replace (bound m) with (bound m + 0)%nat by lia. unfold bound.
    destruct q; apply within_bind; try (intros; exact I);
      (eapply within_mono; [|first [apply within_sq|apply within_r|apply within_tri|apply within_bb|apply within_contains|apply within_sphere]]; lia).
  Qed.
  Lemma within_thread : forall (m : mesh T) qs, within (length qs * bound m) (p_thread m qs).
  Proof.
    intros m. induction qs as [|q r IH]; [exact I|]. cbn [length p_thread Nat.mul]. apply within_bind; [apply within_query|].
    intros a. replace (length r * bound m)%nat with (length r * bound m + 0)%nat by lia. apply within_bind; auto. intros; exact I.
  Qed.
End Depth.

(** ** A rely-guarantee argument: all accesses of all threads keep the caches right *)
Section Safe.
  Context {T : Type} {NT : Num T}.
  Variable s0 : shape T.                 (* the shape at the start *)
  Variable Wok : Prop.                   (* whether bounding box writes are allowed *)
  Let mn := fst (bb_of_points (m_points (s_mesh s0))).
  Let mx := snd (bb_of_points (m_points (s_mesh s0))).

  (** what a thread may rely on; the pair says whether min and max are known to be right *)
  Definition readable (l : loc) (f : bool * bool) : val (T := T) l -> Prop :=
    match l return val l -> Prop with
    | LR => fun v => v = m_r (s_mesh s0)
    | LR2 => fun v => v = m_r2 (s_mesh s0)
    | LTC => fun v => v = m_tc (s_mesh s0)
    | LBV => fun v => s_bbv s0 = true -> v = true
    | LMin => fun v => fst f = true -> v = mn
    | LMax => fun v => snd f = true -> v = mx
    end.
  Definition learn (l : loc) (f : bool * bool) : val (T := T) l -> bool * bool :=
    match l return val l -> bool * bool with
    | LBV => fun v => if v then (true, true) else f
    | _ => fun _ => f
    end.
  Definition writable (l : loc) (f : bool * bool) : val (T := T) l -> Prop :=
    match l return val l -> Prop with
    | LBV => fun v => Wok /\ v = true /\ f = (true, true)
    | LMin => fun v => Wok /\ v = mn
    | LMax => fun v => Wok /\ v = mx
    | _ => fun _ => False
    end.
  Definition wlearn (l : loc) (f : bool * bool) : bool * bool :=
    match l with LMin => (true, snd f) | LMax => (fst f, true) | _ => f end.
  Fixpoint safe {A} (B : Prop) (Q : bool * bool -> A -> Prop) (f : bool * bool) (p : prog T A) {struct p} : Prop :=
    match p with
    | Done a => Q f a
    | Bad => B
    | Rd l k => forall v, readable l f v -> safe B Q (learn l f v) (k v)
    | Wr l v k => writable l f v /\ safe B Q (wlearn l f) k
    | Push _ _ => False
    end.
  Lemma safe_bind : forall A A' B (p : prog T A) (g : A -> prog T A') Q f,
    safe B (fun f a => safe B Q f (g a)) f p -> safe B Q f (bind p g).
  Proof. induction p as [a| |l k IH|l v k IH|t k IH]; intros g Q f H; cbn in *; auto. destruct H. split; auto. Qed.
  Lemma safe_mono : forall A (B B' : Prop) (p : prog T A) (Q Q' : bool * bool -> A -> Prop) f,
    (B -> B') -> (forall f a, Q f a -> Q' f a) -> safe B Q f p -> safe B' Q' f p.
  Proof.
    intros A B B' p. induction p as [a| |l k IH|l v k IH|t k IH]; intros Q Q' f HB HQ H; cbn in *; auto.
    - intros v R. eapply IH; eauto.
    - destruct H. split; auto. eapply IH; eauto.
  Qed.

  (** memory invariant and facts *)
  Definition mem_ok (s : shape T) : Prop :=
    s_mesh s = s_mesh s0 /\ (s_bbv s0 = true -> s_bbv s = true) /\ (s_bbv s = true -> s_bbmin s = mn /\ s_bbmax s = mx) /\
    (~ Wok -> s = s0).
  Definition holds (f : bool * bool) (s : shape T) : Prop := (fst f = true -> s_bbmin s = mn) /\ (snd f = true -> s_bbmax s = mx).

  Lemma safe_step : forall A B (Q : bool * bool -> A -> Prop) f p s p' s', mem_ok s -> holds f s -> safe B Q f p ->
    step1 p s = (p', s') ->
    mem_ok s' /\ (exists f', holds f' s' /\ safe B Q f' p') /\ (forall g, holds g s -> holds g s').
  Proof.
    intros A B Q f p s p' s' M H S E. destruct p as [a| |l k|l v k|t k]; cbn in E.
    - injection E as <- <-. split; auto. split; eauto.
    - injection E as <- <-. split; auto. split; eauto.
    - injection E as <- <-. split; auto. split; auto. cbn in S.
      destruct M as [M1 [M2 [M3 M4]]]. destruct H as [H1 H2].
      assert (Rd : readable l f (get l s)) by (destruct l; cbn; rewrite ?M1; auto).
      exists (learn l f (get l s)). split; [|apply S; exact Rd].
      destruct l; cbn; try (split; assumption). destruct (s_bbv s) eqn:V; [|split; assumption].
      destruct (M3 eq_refl). split; auto.
    - injection E as <- <-. cbn in S. destruct S as [Wr S]. destruct M as [M1 [M2 [M3 M4]]].
      destruct l; cbn in Wr; try contradiction; destruct Wr as [W Wr].
      + destruct Wr as [-> ->]. destruct H as [H1 H2]. cbn in H1, H2. cbn.
        split; [split; [|split; [|split]]; cbn; auto; intros; contradiction|]. split.
        exists (true, true). split; auto. split; auto. intros g G. exact G.
      + subst v. cbn. split; [split; [|split; [|split]]; cbn; auto; try (intros; contradiction); intros V; destruct (M3 V); auto|]. split.
        exists (true, snd f). split; auto. destruct H; split; auto. intros g [G1 G2]. split; auto.
      + subst v. cbn. split; [split; [|split; [|split]]; cbn; auto; try (intros; contradiction); intros V; destruct (M3 V); auto|]. split.
        exists (fst f, true). split; auto. destruct H; split; auto. intros g [G1 G2]. split; auto.
    - contradiction.
  Qed.

  (** all threads *)
  Definition all_safe (Bs : list Prop) (Qs : list (list (ans (T := T)) -> Prop)) (c : config (T := T)) : Prop :=
    mem_ok (fst c) /\ length (snd c) = length Bs /\ length Bs = length Qs /\
    forall i p B Q, nth_error (snd c) i = Some p -> nth_error Bs i = Some B -> nth_error Qs i = Some Q ->
      exists f, holds f (fst c) /\ safe B (fun _ => Q) f p.
  Lemma nth_upd : forall A (l : list A) i j x, nth_error (upd l i x) j =
    if Nat.eqb i j then match nth_error l j with Some _ => Some x | None => None end else nth_error l j.
  Proof.
    induction l as [|a r IH]; intros [|i] [|j] x; cbn; auto. destruct (Nat.eqb i j); auto.
  Qed.
  Lemma upd_length : forall A (l : list A) i x, length (upd l i x) = length l.
  Proof. induction l as [|a r IH]; intros [|i] x; cbn; auto. Qed.
  Lemma all_step : forall Bs Qs c i, all_safe Bs Qs c -> all_safe Bs Qs (step c i).
  Proof.
    intros Bs Qs [s ps] i [M [L1 [L2 H]]]. unfold step. cbn [fst snd] in *.
    destruct (nth_error ps i) as [p|] eqn:N; [|split; [exact M|split; [exact L1|split; [exact L2|exact H]]]].
    destruct (step1 p s) as [p' s'] eqn:E.
    assert (Li : (i < length ps)%nat) by (apply nth_error_Some; congruence).
    destruct (nth_error Bs i) as [B|] eqn:NB; [|apply nth_error_None in NB; lia].
    destruct (nth_error Qs i) as [Q|] eqn:NQ; [|apply nth_error_None in NQ; lia].
    destruct (H i p B Q N NB NQ) as [f [F S]].
    destruct (safe_step _ _ _ _ _ _ _ _ M F S E) as [M' [[f' [F' S']] G]].
    split; [exact M'|]. cbn [fst snd]. rewrite upd_length. split; auto. split; auto.
    intros j q B' Q' Nj NB' NQ'. rewrite nth_upd in Nj. destruct (Nat.eqb_spec i j) as [<-|D].
    - rewrite N in Nj. injection Nj as <-. rewrite NB in NB'. rewrite NQ in NQ'. injection NB' as <-. injection NQ' as <-. eauto.
    - destruct (H j q B' Q' Nj NB' NQ') as [g [Hg Sg]]. exists g. split; auto.
  Qed.
  Lemma all_exec : forall Bs Qs sched c, all_safe Bs Qs c -> all_safe Bs Qs (exec c sched).
  Proof. induction sched as [|i r IH]; intros c H; auto. cbn. apply IH. apply all_step. auto. Qed.

  (** without write permission a safe thread is never about to write *)
  Lemma safe_nowrite : forall A B Q f (p : prog T A) l w, ~ Wok -> safe B Q f p -> next_access p = Some (l, w) -> w = false.
  Proof.
    intros A B Q f p l w NW S E. destruct p; cbn in E; try discriminate E.
    - injection E as _ <-. auto.
    - cbn in S. destruct S as [S _]. destruct l0; cbn in S; try contradiction; destruct S; contradiction.
    - contradiction.
  Qed.

  (** *** the queries *)
  (** a cached radius that is not zero, a filled (or necessarily empty) triangle cache *)
  Definition warm (q : query (T := T)) : Prop :=
    match q with
    | QSq => neqb (m_r2 (s_mesh s0)) n0 = false
    | QR => neqb (m_r (s_mesh s0)) n0 = false
    | QTri => m_tc (s_mesh s0) <> [] \/ m_tris (s_mesh s0) = []
    | QBB => s_bbv s0 = true \/ Wok
    | QContains _ | QSphere _ _ => neqb (m_r2 (s_mesh s0)) n0 = false /\ neqb (m_r (s_mesh s0)) n0 = false
    end.
  Lemma safe_sq : forall B f, neqb (m_r2 (s_mesh s0)) n0 = false ->
    safe B (fun _ x => x = fst (getSquaredMaxRadius (s_mesh s0))) f (p_sq (s_mesh s0)).
  Proof.
    intros B f W. cbn. intros v ->. rewrite W. cbn. intros v ->. unfold getSquaredMaxRadius. rewrite ?W. reflexivity.
  Qed.
  Lemma safe_r : forall B f, neqb (m_r (s_mesh s0)) n0 = false ->
    safe B (fun _ x => x = fst (getMaxRadius (s_mesh s0))) f (p_r (s_mesh s0)).
  Proof.
    intros B f W. cbn. intros v ->. rewrite W. cbn. intros v ->. unfold getMaxRadius. rewrite ?W. reflexivity.
  Qed.
  Lemma safe_tri : forall B f, m_tc (s_mesh s0) <> [] \/ m_tris (s_mesh s0) = [] ->
    safe B (fun _ x => exists m', getTriangles (s_mesh s0) = Ret (x, m')) f (p_tri (s_mesh s0)).
  Proof.
    intros B f W. cbn. intros v ->. unfold getTriangles. destruct (m_tc (s_mesh s0)) as [|t r] eqn:E.
    - destruct W as [W|W]; [congruence|]. rewrite W. cbn. intros v ->. rewrite E. eauto.
    - cbn. intros v ->. rewrite E. eauto.
  Qed.
  Lemma safe_bb : forall B f, s_bbv s0 = true \/ Wok -> (s_bbv s0 = true -> s_bbmin s0 = mn /\ s_bbmax s0 = mx) ->
    safe B (fun _ x => x = fst (shape_bbox s0 (s_mesh s0))) f (p_bb (s_mesh s0)).
  Proof.
    intros B f W C.
    assert (E : fst (shape_bbox s0 (s_mesh s0)) = box_make mn mx).
    { unfold shape_bbox, mn, mx in *. destruct (s_bbv s0). destruct C as [<- <-]; auto. destruct (bb_of_points _). reflexivity. }
    rewrite E. unfold p_bb. rewrite (surjective_pairing (bb_of_points (m_points (s_mesh s0)))). fold mn mx.
    cbn [safe]. intros v V. cbn in V. destruct v; cbn.
    - intros x X y Y. rewrite X, Y by auto. auto.
    - destruct W as [W|W]; [discriminate (V W)|]. repeat split; auto. intros x X y Y. rewrite X, Y by auto. auto.
  Qed.
  Lemma safe_lift : forall A (o : outcome A) (B : Prop) (Q : bool * bool -> A -> Prop) f,
    (forall a, o = Ret a -> Q f a) -> ((forall a, o <> Ret a) -> B) -> safe B Q f (lift o).
  Proof. intros A [a| | |] B Q f H1 H2; cbn; auto; apply H2; intros; discriminate. Qed.
  Lemma safe_contains : forall (B : Prop) f p, neqb (m_r2 (s_mesh s0)) n0 = false -> neqb (m_r (s_mesh s0)) n0 = false ->
    ((forall b, mesh_contains (s_mesh s0) p <> Ret b) -> B) ->
    safe B (fun _ b => mesh_contains (s_mesh s0) p = Ret b) f (p_contains (s_mesh s0) p).
  Proof.
    intros B f p W2 W1 HB. unfold p_contains. apply safe_bind. eapply safe_mono; [| |apply (safe_sq B f W2)]; [auto|].
    intros f1 sq ->. unfold mesh_contains in *. destruct (nltb _ _); [reflexivity|].
    apply safe_bind. eapply safe_mono; [| |apply (safe_r B f1 W1)]; [auto|]. intros f2 r ->. apply safe_lift; auto.
  Qed.
  Lemma safe_sphere : forall (B : Prop) f p r, neqb (m_r2 (s_mesh s0)) n0 = false -> neqb (m_r (s_mesh s0)) n0 = false ->
    ((forall b, mesh_sphere (s_mesh s0) p r <> Ret b) -> B) ->
    safe B (fun _ b => mesh_sphere (s_mesh s0) p r = Ret b) f (p_sphere (s_mesh s0) p r).
  Proof.
    intros B f p r W2 W1 HB. unfold p_sphere. apply safe_bind. eapply safe_mono; [| |apply (safe_r B f W1)]; [auto|].
    intros f1 mr ->. unfold mesh_sphere in *. destruct (nltb _ _); [reflexivity|].
    apply safe_bind. apply safe_lift.
    - intros hit E. rewrite E in *. cbn [obind] in *. destruct hit; [reflexivity|]. apply safe_contains; auto.
    - intros N. apply HB. intros b E. destruct (if nltb n0 r then _ else _) as [h| | |]; [exact (N h eq_refl)|discriminate E..].
  Qed.
  Lemma safe_query : forall (B : Prop) f q, warm q -> (s_bbv s0 = true -> s_bbmin s0 = mn /\ s_bbmax s0 = mx) ->
    ((forall a, seq_ans s0 q <> Ret a) -> B) ->
    safe B (fun _ a => seq_ans s0 q = Ret a) f (p_query (s_mesh s0) q).
  Proof.
    intros B f q W C HB. destruct q; cbn [p_query warm] in *; apply safe_bind.
    - eapply safe_mono; [| |apply (safe_sq B f W)]; [auto|]. intros f1 x ->. reflexivity.
    - eapply safe_mono; [| |apply (safe_r B f W)]; [auto|]. intros f1 x ->. reflexivity.
    - eapply safe_mono; [| |apply (safe_tri B f W)]; [auto|]. intros f1 x [m' E]. cbn. rewrite E. reflexivity.
    - eapply safe_mono; [| |apply (safe_bb B f W C)]; [auto|]. intros f1 x ->. reflexivity.
    - destruct W as [W2 W1]. eapply safe_mono; [| |apply (safe_contains B f p W2 W1)]; [auto| |].
      + intros f1 x E. cbn. rewrite E. reflexivity.
      + intros N. apply HB. intros a E. cbn in E. destruct (mesh_contains (s_mesh s0) p) as [b| | |]; [exact (N b eq_refl)|discriminate E..].
    - destruct W as [W2 W1]. eapply safe_mono; [| |apply (safe_sphere B f p radius W2 W1)]; [auto| |].
      + intros f1 x E. cbn. rewrite E. reflexivity.
      + intros N. apply HB. intros a E. cbn in E. destruct (mesh_sphere (s_mesh s0) p radius) as [b| | |]; [exact (N b eq_refl)|discriminate E..].
  Qed.
  Definition answers (qs : list query) (l : list (ans (T := T))) : Prop := Forall2 (fun q a => seq_ans s0 q = Ret a) qs l.
  Definition some_bad (qs : list query) : Prop := exists q, In q qs /\ forall a : ans (T := T), seq_ans s0 q <> Ret a.
  Lemma safe_thread : forall qs f (B : Prop), Forall warm qs -> (s_bbv s0 = true -> s_bbmin s0 = mn /\ s_bbmax s0 = mx) ->
    (some_bad qs -> B) -> safe B (fun _ => answers qs) f (p_thread (s_mesh s0) qs).
  Proof.
    induction qs as [|q r IH]; intros f B W C HB; [cbn; constructor|]. cbn [p_thread]. inversion W as [|? ? W1 W2]; subst.
    apply safe_bind. eapply safe_mono; [| |apply (safe_query B f q W1 C)]; [auto| |].
    - intros f1 a E. apply safe_bind. eapply safe_mono; [| |apply (IH f1 B W2 C)]; [auto| |].
      + intros f2 l F. cbn. constructor; auto.
      + intros [q' [I N]]. apply HB. exists q'. split; [right|]; auto.
    - intros N. apply HB. exists q. split; [left|]; auto.
  Qed.
  Lemma start_safe : forall qss, Forall (Forall warm) qss -> (s_bbv s0 = true -> s_bbmin s0 = mn /\ s_bbmax s0 = mx) ->
    all_safe (map some_bad qss) (map answers qss) (start s0 qss).
  Proof.
    intros qss W C. unfold start. split; [|split; [|split]].
    - repeat split; auto; intros; apply C; auto.
    - cbn. rewrite !map_length. auto.
    - rewrite !map_length. auto.
    - intros i p B Q N NB NQ. cbn in N. rewrite nth_error_map in N, NB, NQ. destruct (nth_error qss i) as [qs|] eqn:E; [|discriminate N].
      cbn in N, NB, NQ. injection N as <-. injection NB as <-. injection NQ as <-. exists (false, false). split.
      + split; intros X; discriminate X.
      + apply safe_thread; auto. rewrite Forall_forall in W. apply W. eapply nth_error_In; eauto.
  Qed.
End Safe.
