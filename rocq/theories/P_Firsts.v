(** Lemmas about first occurrences (Spec.s_firsts) and positions of keys in a list. *)
From Coq Require Import List Bool Lia Arith.
From Verif Require Import Spec.
Import ListNotations.

Section Firsts.
  Context {A K : Type} (eqb : K -> K -> bool) (EQ : forall a b, eqb a b = true <-> a = b) (key : A -> K).
  Notation firsts := (s_firsts eqb key []).

  Lemma eqb_same : forall k, eqb k k = true. Proof. intros. apply EQ. auto. Qed.
  Lemma eqb_diff : forall a b, eqb a b = false <-> a <> b.
  Proof. intros. rewrite <- EQ. destruct (eqb a b); split; congruence. Qed.
  Lemma eqb_sym : forall a b, eqb a b = eqb b a.
  Proof. intros. destruct (eqb b a) eqn:E; [apply EQ in E; apply EQ; congruence|apply eqb_diff in E; apply eqb_diff; congruence]. Qed.

  Lemma gfirsts_snoc : forall l v seen,
    s_firsts eqb key seen (l ++ [v]) =
    s_firsts eqb key seen l ++ (if existsb (eqb (key v)) (seen ++ map key (s_firsts eqb key seen l)) then [] else [v]).
  Proof.
    induction l as [|a r IH]; intros v seen; cbn [app s_firsts map].
    - rewrite app_nil_r. destruct (existsb (eqb (key v)) seen); auto.
    - destruct (existsb (eqb (key a)) seen) eqn:E.
      + rewrite IH. auto.
      + rewrite IH. cbn. f_equal. f_equal. cbn [existsb].
        replace (existsb (eqb (key v)) (seen ++ key a :: map key (s_firsts eqb key (key a :: seen) r)))
          with (eqb (key v) (key a) || existsb (eqb (key v)) (seen ++ map key (s_firsts eqb key (key a :: seen) r)))%bool; auto.
        rewrite !existsb_app. cbn. destruct (eqb (key v) (key a)), (existsb (eqb (key v)) seen); auto.
  Qed.
  Lemma gfirsts_keys : forall l k, existsb (eqb k) (map key (firsts l)) = existsb (eqb k) (map key l).
  Proof.
    induction l as [|v l IH] using rev_ind; intros k; auto.
    rewrite gfirsts_snoc. cbn [app]. rewrite !map_app, !existsb_app, IH.
    destruct (existsb (eqb (key v)) (map key (firsts l))) eqn:E; cbn; auto.
    rewrite orb_false_r. destruct (eqb k (key v)) eqn:E2; cbn; [|rewrite orb_false_r; auto].
    apply EQ in E2. subst k. rewrite IH in E. rewrite E. auto.
  Qed.
  Lemma find_app_ : forall (f : A -> bool) l1 l2,
    find f (l1 ++ l2) = match find f l1 with Some x => Some x | None => find f l2 end.
  Proof. induction l1; cbn; intros; auto. destruct (f a); auto. Qed.
  Lemma gfind_firsts : forall l k, find (fun q => eqb k (key q)) (firsts l) = find (fun q => eqb k (key q)) l.
  Proof.
    induction l as [|v l IH] using rev_ind; intros k; auto.
    rewrite gfirsts_snoc. cbn [app]. rewrite !find_app_, IH.
    destruct (find (fun q => eqb k (key q)) l) eqn:F; auto.
    destruct (existsb (eqb (key v)) (map key (firsts l))) eqn:E; cbn; auto.
    destruct (eqb k (key v)) eqn:Q; auto. apply EQ in Q. subst k.
    apply existsb_exists in E. destruct E as [k' [I E]]. apply EQ in E. apply in_map_iff in I. destruct I as [q [Q I]].
    rewrite <- IH in F. apply find_none with (x := q) in F; auto. apply eqb_diff in F. congruence.
  Qed.
  Lemma gfirsts_in : forall l seen a, In a (s_firsts eqb key seen l) -> In a l.
  Proof.
    induction l as [|v r IH]; cbn; intros seen a H; auto. destruct (existsb _ seen); [right; eauto|].
    destruct H as [H|H]; [auto|right; eauto].
  Qed.
  Lemma gfirsts_le : forall l seen, length (s_firsts eqb key seen l) <= length l.
  Proof. induction l as [|v r IH]; cbn; intros seen; auto. destruct (existsb _ seen); cbn; [specialize (IH seen)|specialize (IH (key v :: seen))]; lia. Qed.
  Lemma gfirsts_nodup_aux : forall l seen, NoDup (map key (s_firsts eqb key seen l)) /\
    forall k, In k (map key (s_firsts eqb key seen l)) -> ~ In k seen.
  Proof.
    induction l as [|v r IH]; cbn; intros seen. split; [constructor|auto].
    destruct (existsb (eqb (key v)) seen) eqn:E; [apply IH|].
    destruct (IH (key v :: seen)) as [D N]. cbn. split.
    - constructor; auto. intros I. apply (N _ I). left; auto.
    - intros k [<-|I] J.
      + assert (existsb (eqb (key v)) seen = true); [|congruence]. apply existsb_exists. exists (key v). split; auto. apply eqb_same.
      + apply (N k I). right; auto.
  Qed.
  Lemma gfirsts_nodup : forall l, NoDup (map key (firsts l)).
  Proof. intros. apply gfirsts_nodup_aux. Qed.
  Lemma gfirsts_id_aux : forall l seen, NoDup (map key l) -> (forall p, In p l -> ~ In (key p) seen) ->
    s_firsts eqb key seen l = l.
  Proof.
    induction l as [|v l IH]; cbn; intros seen D N; auto. inversion D; subst.
    destruct (existsb (eqb (key v)) seen) eqn:E.
    - apply existsb_exists in E. destruct E as [k [I E]]. apply EQ in E. exfalso. apply (N v); subst; auto.
    - f_equal. apply IH; auto. intros p I [J|J]. apply H1. rewrite J. apply in_map; auto. apply (N p); auto.
  Qed.
  Lemma gfirsts_id : forall l, NoDup (map key l) -> firsts l = l.
  Proof. intros. apply gfirsts_id_aux; auto. Qed.

  (** position of the first element with a given key *)
  Fixpoint gindex (k : K) (l : list A) : option nat :=
    match l with
    | [] => None
    | a :: r => if eqb k (key a) then Some 0 else option_map S (gindex k r)
    end.
  Lemma gindex_app : forall k l v, gindex k (l ++ [v]) =
    match gindex k l with Some j => Some j | None => if eqb k (key v) then Some (length l) else None end.
  Proof.
    induction l as [|p r IH]; intros v; cbn [app gindex length].
    - destruct (eqb k (key v)); auto.
    - destruct (eqb k (key p)); auto. rewrite IH. destruct (gindex k r); cbn; auto. destruct (eqb k (key v)); auto.
  Qed.
  Lemma gindex_none : forall k l, gindex k l = None <-> existsb (eqb k) (map key l) = false.
  Proof.
    induction l as [|p r IH]; cbn; [tauto|]. destruct (eqb k (key p)); cbn; [split; discriminate|].
    rewrite <- IH. destruct (gindex k r); cbn; split; congruence.
  Qed.
  Lemma gindex_some : forall k l j, gindex k l = Some j ->
    exists q, nth_error l j = Some q /\ k = key q /\ find (fun q => eqb k (key q)) l = Some q.
  Proof.
    induction l as [|p r IH]; cbn; intros j H; [discriminate|].
    destruct (eqb k (key p)) eqn:E.
    - injection H as <-. exists p. apply EQ in E. auto.
    - destruct (gindex k r) as [j'|]; [|discriminate]. injection H as <-. destruct (IH _ eq_refl) as [q [? [? ?]]]. exists q. auto.
  Qed.
  Lemma gindex_lt : forall k l j, gindex k l = Some j -> j < length l.
  Proof. intros k l j H. destruct (gindex_some _ _ _ H) as [q [Q _]]. apply nth_error_Some. congruence. Qed.
  Lemma gindex_inj : forall k k' l j, gindex k l = Some j -> gindex k' l = Some j -> k = k'.
  Proof.
    intros k k' l j H H'. destruct (gindex_some _ _ _ H) as [q [Q [-> _]]], (gindex_some _ _ _ H') as [q' [Q' [-> _]]]. congruence.
  Qed.
  Lemma gindex_in : forall l v, In v l -> exists j, gindex (key v) (firsts l) = Some j.
  Proof.
    intros l v I. destruct (gindex (key v) (firsts l)) eqn:E; eauto. apply gindex_none in E. rewrite gfirsts_keys in E.
    assert (existsb (eqb (key v)) (map key l) = true); [|congruence].
    apply existsb_exists. exists (key v). split; [apply in_map; auto|apply eqb_same].
  Qed.
End Firsts.
