(** Shape bounding boxes: order-only reasoning, valid for the reals and for all doubles. *)
From Coq Require Import ZArith NArith List Bool Lia Reals Lra.
From Verif Require Import Num MathTypes Outcome Mesh Box Spec NumOrd P_Tac P_Mesh P_Box P_BoxMesh.
Import ListNotations.

Section G.
  Context {T : Type} {NT : Num T} {O : NumOrd T}.
  Definition fmin (l : list T) (a : T) : T := fold_left (fun a x => nmin x a) l a.
  Definition fmax (l : list T) (a : T) : T := fold_left (fun a x => nmax x a) l a.
  Lemma bb_axes : forall (pts : list (vec3 T)) mn mx, fold_left bb_pt pts (mn, mx) =
    (V3 (fmin (map vx pts) (vx mn)) (fmin (map vy pts) (vy mn)) (fmin (map vz pts) (vz mn)),
     V3 (fmax (map vx pts) (vx mx)) (fmax (map vy pts) (vy mx)) (fmax (map vz pts) (vz mx))).
  Proof.
    induction pts as [|p pts IH]; intros mn mx; cbn [fold_left map].
    - destruct mn, mx; reflexivity.
    - cbn [bb_pt]. rewrite IH. reflexivity.
  Qed.

  Lemma nmin_cases : forall a b : T, nmin a b = a \/ nmin a b = b.
  Proof. intros. unfold nmin. destruct (nltb b a); auto. Qed.
  Lemma nmax_cases : forall a b : T, nmax a b = a \/ nmax a b = b.
  Proof. intros. unfold nmax. destruct (nltb a b); auto. Qed.
  Lemma nmin_keys : forall (a b : T) x y, nkey a = Some x -> nkey b = Some y ->
    exists z, nkey (nmin a b) = Some z /\ ext_le z x /\ ext_le z y.
  Proof.
    intros a b x y A B. unfold nmin. destruct (nltb b a) eqn:L.
    - apply nltb_key in L. destruct L as [y' [x' [E1 [E2 L]]]]. rewrite B in E1. rewrite A in E2.
      injection E1 as <-. injection E2 as <-. exists y. repeat split; auto; unfold ext_le; auto.
    - exists x. repeat split; auto; [right; auto|]. apply ext_le_not_lt. intros G.
      assert (nltb b a = true) by (apply nltb_key; eauto). congruence.
  Qed.
  Lemma nmax_keys : forall (a b : T) x y, nkey a = Some x -> nkey b = Some y ->
    exists z, nkey (nmax a b) = Some z /\ ext_le x z /\ ext_le y z.
  Proof.
    intros a b x y A B. unfold nmax. destruct (nltb a b) eqn:L.
    - apply nltb_key in L. destruct L as [x' [y' [E1 [E2 L]]]]. rewrite A in E1. rewrite B in E2.
      injection E1 as <-. injection E2 as <-. exists y. repeat split; auto; unfold ext_le; auto.
    - exists x. repeat split; auto; [right; auto|]. apply ext_le_not_lt. intros G.
      assert (nltb a b = true) by (apply nltb_key; eauto). congruence.
  Qed.

  Definition isnum (x : T) : Prop := exists k, nkey x = Some k.

  Lemma fmin_spec : forall l a ka, nkey a = Some ka -> (forall x, In x l -> isnum x) ->
    exists k, nkey (fmin l a) = Some k /\ ext_le k ka /\
      (forall x kx, In x l -> nkey x = Some kx -> ext_le k kx) /\ (fmin l a = a \/ In (fmin l a) l).
  Proof.
    induction l as [|x l IH]; intros a ka A N.
    - exists ka. cbn. repeat split; auto. right; auto. intros ? ? [].
    - destruct (N x (or_introl eq_refl)) as [kx X].
      destruct (nmin_keys x a kx ka X A) as [z [Z [Z1 Z2]]].
      destruct (IH (nmin x a) z Z (fun y Y => N y (or_intror Y))) as [k [K1 [K2 [K3 K4]]]].
      exists k. change (fmin (x :: l) a) with (fmin l (nmin x a)). repeat split; auto.
      + eapply ext_le_trans; eauto.
      + intros y ky [<-|Y] KY.
        * rewrite X in KY. injection KY as <-. eapply ext_le_trans; eauto.
        * eauto.
      + destruct K4 as [K4|K4]; [|right; right; auto]. rewrite K4.
        destruct (nmin_cases x a) as [-> | ->]; [right; left|left]; auto.
  Qed.
  Lemma fmax_spec : forall l a ka, nkey a = Some ka -> (forall x, In x l -> isnum x) ->
    exists k, nkey (fmax l a) = Some k /\ ext_le ka k /\
      (forall x kx, In x l -> nkey x = Some kx -> ext_le kx k) /\ (fmax l a = a \/ In (fmax l a) l).
  Proof.
    induction l as [|x l IH]; intros a ka A N.
    - exists ka. cbn. repeat split; auto. right; auto. intros ? ? [].
    - destruct (N x (or_introl eq_refl)) as [kx X].
      destruct (nmax_keys x a kx ka X A) as [z [Z [Z1 Z2]]].
      destruct (IH (nmax x a) z Z (fun y Y => N y (or_intror Y))) as [k [K1 [K2 [K3 K4]]]].
      exists k. change (fmax (x :: l) a) with (fmax l (nmax x a)). repeat split; auto.
      + eapply ext_le_trans; eauto.
      + intros y ky [<-|Y] KY.
        * rewrite X in KY. injection KY as <-. eapply ext_le_trans; eauto.
        * eauto.
      + destruct K4 as [K4|K4]; [|right; right; auto]. rewrite K4.
        destruct (nmax_cases x a) as [-> | ->]; [right; left|left]; auto.
  Qed.

  Lemma ext_le_antisym : forall a b, ext_le a b -> ext_le b a -> a = b.
  Proof.
    intros a b [H|H] [G|G]; auto. exfalso. apply (ext_lt_irrefl a). eapply ext_lt_trans; eauto.
  Qed.

  Definition within (h : R) (x : T) : Prop := exists k, nkey x = Some k /\ ext_le (Fin (- h)) k /\ ext_le k (Fin h).
  Lemma fmin_tight : forall l h, (Z.abs h <= 2^53)%Z -> l <> [] -> (forall x, In x l -> within (IZR h) x) ->
    exists x, In x l /\ neqb (fmin l (nofZ h)) x = true.
  Proof.
    intros l h H NE W.
    destruct (fmin_spec l (nofZ h) (Fin (IZR h)) (nofZ_key h H)) as [k [K1 [K2 [K3 K4]]]].
    { intros x X. destruct (W x X) as [k [? _]]. exists k; auto. }
    destruct K4 as [K4|K4].
    - destruct l as [|x l]; [congruence|]. exists x. split; [left; auto|].
      destruct (W x (or_introl eq_refl)) as [kx [KX [_ U]]]. apply neqb_key. exists kx. split; auto.
      rewrite K4 in *. rewrite nofZ_key in K1 by auto. injection K1 as <-.
      specialize (K3 x kx (or_introl eq_refl) KX). rewrite (ext_le_antisym _ _ U K3). apply nofZ_key. auto.
    - exists (fmin l (nofZ h)). split; auto. apply neqb_key. exists k; auto.
  Qed.
  Lemma fmax_tight : forall l h, (Z.abs h <= 2^53)%Z -> l <> [] -> (forall x, In x l -> within (IZR h) x) ->
    exists x, In x l /\ neqb (fmax l (nofZ (-h))) x = true.
  Proof.
    intros l h H NE W.
    assert (H' : (Z.abs (-h) <= 2^53)%Z) by lia.
    destruct (fmax_spec l (nofZ (-h)) (Fin (IZR (-h))) (nofZ_key (-h) H')) as [k [K1 [K2 [K3 K4]]]].
    { intros x X. destruct (W x X) as [k [? _]]. exists k; auto. }
    destruct K4 as [K4|K4].
    - destruct l as [|x l]; [congruence|]. exists x. split; [left; auto|].
      destruct (W x (or_introl eq_refl)) as [kx [KX [U _]]]. apply neqb_key. exists kx. split; auto.
      rewrite K4 in *. rewrite nofZ_key in K1 by auto. injection K1 as <-.
      specialize (K3 x kx (or_introl eq_refl) KX). rewrite <- opp_IZR in U. rewrite (ext_le_antisym _ _ K3 U). apply nofZ_key. auto.
    - exists (fmax l (nofZ (-h))). split; auto. apply neqb_key. exists k; auto.
  Qed.

  (** a NaN coordinate makes the running minimum forget everything before it *)
  Lemma fmin_nan : forall l1 n x l2 a, nkey n = None -> fmin (l1 ++ n :: x :: l2) a = fmin l2 x.
  Proof.
    intros l1 n x l2 a N. unfold fmin. rewrite fold_left_app. cbn [fold_left]. f_equal.
    assert (C : forall u, nltb n u = false /\ nltb u n = false).
    { intros u. split; [destruct (nltb n u) eqn:E|destruct (nltb u n) eqn:E]; auto;
      apply nltb_key in E; destruct E as [p [q [E1 [E2 _]]]]; congruence. }
    set (u := fold_left (fun a x => nmin x a) l1 a). unfold nmin. destruct (C u) as [_ ->]. destruct (C x) as [-> _]. reflexivity.
  Qed.

  (** cache invariant of plain shapes *)
  Definition bb_inv (s : shape T) : Prop :=
    s_bbv s = true -> (s_bbmin s, s_bbmax s) = bb_of_points (m_points (s_mesh s)).
  Lemma getMaxRadius_points : forall m : mesh T, m_points (snd (getMaxRadius m)) = m_points m.
  Proof.
    intros m. unfold getMaxRadius, getSquaredMaxRadius.
    repeat match goal with |- context [if ?c then _ else _] => destruct c end; reflexivity.
  Qed.
  Lemma shape_step_inv : forall s o, bb_inv s -> bb_inv (shape_step s o).
  Proof.
    intros s [m| |] I; cbn [shape_step].
    - intros H. discriminate H.
    - unfold shape_bbox. cbn [snd]. destruct (s_bbv s) eqn:V; auto.
      destruct (bb_of_points (m_points (s_mesh s))) as [mn mx] eqn:E. intros _. cbn [s_bbmin s_bbmax s_mesh]. auto.
    - unfold shape_maxRadius. pose proof (getMaxRadius_points (s_mesh s)) as P.
      destruct (getMaxRadius (s_mesh s)) as [r m]. cbn [snd] in *. intros V. cbn [s_bbv s_bbmin s_bbmax s_mesh] in *.
      rewrite P. apply I, V.
  Qed.
  Lemma shape_run_inv : forall ops s, bb_inv s -> bb_inv (shape_run s ops).
  Proof. induction ops as [|o ops IH]; cbn; auto. intros s I. apply IH, shape_step_inv, I. Qed.
  Lemma shape_bbox_fresh : forall s, bb_inv s ->
    (b_min (fst (shape_bbox s (s_mesh s))), b_max (fst (shape_bbox s (s_mesh s)))) = bb_of_points (m_points (s_mesh s)).
  Proof.
    intros s I. unfold shape_bbox. cbn [fst]. destruct (s_bbv s) eqn:V.
    - cbn [box_make b_min b_max]. apply I, V.
    - destruct (bb_of_points _) as [mn mx]. reflexivity.
  Qed.
End G.
