(** Containment when the segment passes exactly through edges and corners: moving the end of the segment *)
From Coq Require Import ZArith NArith List Bool Lia Reals Lra Psatz Permutation.
From Verif Require Import Num MathTypes Outcome Mesh Box Spec P_Tac P_Math P_Mesh P_MeshGeo ShapeQuery SpecQuery SpecEdge P_Query P_Query2 P_Query3 P_Query5 P_Edge P_Edge2 P_Edge3.
Import ListNotations.
Local Open Scope R_scope.

(** signs that are not zero are kept *)
Definition kept (p q q' : vec3 R) (t : triple) : Prop :=
  let '(a, b, c) := t in
  (s_orient p q a b <> 0 -> 0 < s_orient p q a b * s_orient p q' a b) /\ (s_orient p q b c <> 0 -> 0 < s_orient p q b c * s_orient p q' b c) /\
  (s_orient p q c a <> 0 -> 0 < s_orient p q c a * s_orient p q' c a) /\ (s_height a b c q <> 0 -> 0 < s_height a b c q * s_height a b c q').
Lemma balls : forall fs x, (forall f, In f fs -> affine f) -> exists r, 0 < r /\ forall f y, In f fs -> near r y x -> f x <> 0 -> 0 < f x * f y.
Proof.
  induction fs as [|f fs IH]; intros x H; [exists 1; split; [lra|intros f y []]|].
  destruct (IH x) as [r [R0 K]]; [intros; apply H; right; auto|]. assert (A := H f (or_introl eq_refl)).
  assert (X : exists r1, 0 < r1 /\ forall y, near r1 y x -> f x <> 0 -> 0 < f x * f y).
  { destruct (Req_EM_T (f x) 0) as [Z|NZ]; [exists 1; split; [lra|intros; contradiction]|]. destruct (affine_ball f x A NZ) as [r1 [P Q]]. exists r1. auto. }
  destruct X as [r1 [R1 Q]]. exists (Rmin r r1). split; [apply Rmin_glb_lt; auto|]. intros g y [<-|I] N NZ.
  - apply Q; auto. eapply near_weaken; [apply Rmin_r|eauto].
  - apply K; auto. eapply near_weaken; [apply Rmin_l|eauto].
Qed.
Definition lin (p : vec3 R) (t : triple) : list (vec3 R -> R) := let '(a, b, c) := t in
  [(fun e => s_orient p e a b); (fun e => s_orient p e b c); (fun e => s_orient p e c a); (fun e => s_height a b c e)].
Lemma lin_affine : forall p t f, In f (lin p t) -> affine f.
Proof. intros p [[a b] c] f [<-|[<-|[<-|[<-|[]]]]]; [apply aff_orient_l|apply aff_orient_l|apply aff_orient_l|apply aff_height]. Qed.
Lemma lin_nz : forall p q t f, hgt t p <> 0 -> hgt t q <> 0 -> In f (lin p t) -> exists y, f y <> 0.
Proof.
  intros p q [[a b] c] f H HQ I. unfold hgt in H. destruct I as [<-|[<-|[<-|[<-|[]]]]].
  - exists c. apply nz_orient_l. auto.
  - exists a. apply nz_orient_l. rewrite <- height_rot. auto.
  - exists b. apply nz_orient_l. rewrite height_rot. auto.
  - exists q. auto.
Qed.
Lemma kept_near : forall p q l, exists r, 0 < r /\ forall q' t, near r q' q -> In t l -> kept p q q' t.
Proof.
  intros p q l. destruct (balls (flat_map (lin p) l) q) as [r [R0 H]].
  { intros f I. apply in_flat_map in I. destruct I as [t [_ I]]. eapply lin_affine; eauto. }
  exists r. split; auto. intros q' [[a b] c] N I. assert (X : forall f, In f (lin p (a, b, c)) -> f q <> 0 -> 0 < f q * f q') by (intros f J; apply H; auto; apply in_flat_map; eauto).
  repeat split; intros NZ.
  - apply (X (fun e => s_orient p e a b)); auto; cbn; auto.
  - apply (X (fun e => s_orient p e b c)); auto; cbn; auto.
  - apply (X (fun e => s_orient p e c a)); auto; cbn; auto.
  - apply (X (fun e => s_height a b c e)); auto; cbn; auto.
Qed.
(** regular end points near any point *)
Lemma regular_near : forall p q l x r, 0 < r -> (forall t, In t l -> hgt t p <> 0 /\ hgt t q <> 0) ->
  exists q', near r q' x /\ forall t, In t l -> nz1 p q' t.
Proof.
  intros p q l x r R0 H. destruct (avoid (flat_map (lin p) l) x r R0) as [x' [r' [R' [A B]]]].
  { intros f I. apply in_flat_map in I. destruct I as [t [It I]]. split; [eapply lin_affine; eauto|]. destruct (H t It). eapply (lin_nz p q); eauto. }
  exists x'. split; [apply A, near_refl; auto|]. intros [[a b] c] I. assert (X : forall f, In f (lin p (a, b, c)) -> f x' <> 0) by (intros f J; apply B; [apply in_flat_map; eauto|apply near_refl; auto]).
  destruct (H _ I) as [HP _]. split; [split; [|split]|split].
  - apply (X (fun e => s_orient p e a b)). cbn; auto.
  - apply (X (fun e => s_orient p e b c)). cbn; auto.
  - apply (X (fun e => s_orient p e c a)). cbn; auto.
  - exact HP.
  - apply (X (fun e => s_height a b c e)). cbn; auto.
Qed.
(** ** one triangle after the move *)
Definition sgz (x : R) : Z := if Rlt_dec 0 x then 1%Z else (-1)%Z.
Lemma sgz_pos : forall x, 0 < x -> sgz x = 1%Z. Proof. intros. unfold sgz. destruct Rlt_dec; auto; lra. Qed.
Lemma sgz_neg : forall x, x < 0 -> sgz x = (-1)%Z. Proof. intros. unfold sgz. destruct Rlt_dec; auto; lra. Qed.
Lemma sgz_anti : forall x, x <> 0 -> sgz (- x) = (- sgz x)%Z.
Proof. intros x H. destruct (Rtotal_order 0 x) as [L|[L|L]]; [|congruence|]; [rewrite (sgz_pos x), (sgz_neg (- x)) by lra|rewrite (sgz_neg x), (sgz_pos (- x)) by lra]; reflexivity. Qed.
Lemma seg_rot : forall p q a b c, seg p q b c a = seg p q a b c.
Proof.
  intros. unfold seg. rewrite <- !(height_rot a b c). f_equal. unfold sgn3.
  destruct (Rlt_dec 0 (s_orient p q a b)), (Rlt_dec 0 (s_orient p q b c)), (Rlt_dec 0 (s_orient p q c a)); try reflexivity;
  destruct (Rlt_dec (s_orient p q a b) 0), (Rlt_dec (s_orient p q b c) 0), (Rlt_dec (s_orient p q c a) 0); try reflexivity; lra.
Qed.
Lemma sgn3_p : forall a b c, 0 < a -> 0 < b -> 0 < c -> sgn3 a b c = 1%Z.
Proof. intros. unfold sgn3. repeat (destruct Rlt_dec; try lra); auto. Qed.
Lemma sgn3_n : forall a b c, a < 0 -> b < 0 -> c < 0 -> sgn3 a b c = (-1)%Z.
Proof. intros. unfold sgn3. repeat (destruct Rlt_dec; try lra); auto. Qed.
Lemma sgn3_0 : forall a b c, ~ (0 < a /\ 0 < b /\ 0 < c) -> ~ (a < 0 /\ b < 0 /\ c < 0) -> sgn3 a b c = 0%Z.
Proof. intros a b c H1 H2. unfold sgn3. destruct (Rlt_dec 0 a), (Rlt_dec 0 b), (Rlt_dec 0 c); try (exfalso; tauto); destruct (Rlt_dec a 0), (Rlt_dec b 0), (Rlt_dec c 0); auto; exfalso; tauto. Qed.
Lemma segb_hit : forall x y z, x <> 0 -> y <> 0 -> segb (pos x) (pos y) z = if Rlt_dec (x * y) 0 then z else 0%Z.
Proof.
  intros x y z X Y. unfold segb. destruct (pos_cases x X) as [[A ->]|[A ->]], (pos_cases y Y) as [[B ->]|[B ->]]; cbn [eqb]; destruct Rlt_dec; auto; exfalso; nra.
Qed.
Lemma prod_sign : forall x y y', y <> 0 -> 0 < y * y' -> (x * y < 0 <-> x * y' < 0).
Proof. intros x y y' N P. split; intros; nra. Qed.
Lemma mul_pos_sign : forall x y, 0 < x * y -> (0 < x <-> 0 < y) /\ (x < 0 <-> y < 0).
Proof. intros. split; split; intros; nra. Qed.
(* the segment after the move, from the signs before *)
Lemma seg_moved : forall p q q' a b c, s_height a b c p <> 0 -> s_height a b c q <> 0 -> kept p q q' (a, b, c) -> nz1 p q' (a, b, c) ->
  seg p q' a b c = if Rlt_dec (s_height a b c p * s_height a b c q) 0 then sgn3 (s_orient p q' a b) (s_orient p q' b c) (s_orient p q' c a) else 0%Z.
Proof.
  intros p q q' a b c HP HQ [_ [_ [_ K]]] [_ [_ HQ']]. unfold seg. rewrite segb_hit; auto. specialize (K HQ).
  pose proof (prod_sign (s_height a b c p) _ _ HQ K) as [X Y]. destruct (Rlt_dec (_ * s_height a b c q') 0), (Rlt_dec (_ * s_height a b c q) 0); auto; exfalso; tauto.
Qed.
Lemma tri_moved : forall p q q' i j k a b c, p <> q -> s_height a b c p <> 0 -> s_height a b c q <> 0 -> kept p q q' (a, b, c) -> nz1 p q' (a, b, c) ->
  match act_of p q (i, j, k) (a, b, c) with
  | ANone => seg p q' a b c = 0%Z
  | AGen d => seg p q' a b c = d
  | AEdge x y d => exists z u v w, rotated ((i, j, k), (a, b, c)) ((x, y, z), (u, v, w)) /\ (2 * seg p q' a b c)%Z = (d + sgz (s_orient p q' u v))%Z
  | AVert _ _ => True
  end.
Proof.
  intros p q q' i j k a b c PQ HP HQ KE NZ. pose proof (seg_moved p q q' a b c HP HQ KE NZ) as SM. pose proof KE as [K1 [K2 [K3 _]]]. pose proof NZ as [[Z1 [Z2 Z3]] _].
  destruct (act_of p q (i, j, k) (a, b, c)) as [|d|x y d|x d] eqn:E; auto.
  - unfold act_of in E. destruct (Rlt_dec _ 0) as [L|L]; [|auto]. rewrite SM.
    destruct (dir3_cases (s_orient p q a b) (s_orient p q b c) (s_orient p q c a)) as [[D S]|[[D S]|[D [S1 S2]]]]; rewrite D in E; cbn [Z.eqb] in E.
    1, 2: destruct (is0 (s_orient p q a b)) eqn:Y1, (is0 (s_orient p q b c)) eqn:Y2, (is0 (s_orient p q c a)) eqn:Y3; try discriminate; exfalso; apply PQ; apply (all_zero p q a b c); auto; apply is0_true; auto.
    assert (G : forall s s', s <> 0 -> (s <> 0 -> 0 < s * s') -> (0 < s <-> 0 < s') /\ (s < 0 <-> s' < 0)) by (intros; apply mul_pos_sign; auto).
    assert (NE : forall s s', (s <> 0 -> 0 < s * s') -> 0 < s -> 0 < s') by (intros s s' F P; assert (s <> 0) by lra; specialize (F H); nra).
    assert (NN : forall s s', (s <> 0 -> 0 < s * s') -> s < 0 -> s' < 0) by (intros s s' F P; assert (s <> 0) by lra; specialize (F H); nra).
    apply sgn3_0; intros [A1 [A2 A3]].
    + apply S1. repeat split; apply Rnot_lt_le; intros X; [apply (NN _ _ K1) in X|apply (NN _ _ K2) in X|apply (NN _ _ K3) in X]; lra.
    + apply S2. repeat split; apply Rnot_lt_le; intros X; [apply (NE _ _ K1) in X|apply (NE _ _ K2) in X|apply (NE _ _ K3) in X]; lra.
  - unfold act_of in E. destruct (Rlt_dec _ 0) as [L|L]; [|discriminate]. rewrite SM.
    destruct (dir3_cases (s_orient p q a b) (s_orient p q b c) (s_orient p q c a)) as [[D S]|[[D S]|[D [S1 S2]]]]; rewrite D in E; cbn [Z.eqb] in E; try discriminate;
    (destruct (is0 (s_orient p q a b)) eqn:Y1, (is0 (s_orient p q b c)) eqn:Y2, (is0 (s_orient p q c a)) eqn:Y3; try discriminate; injection E as <-;
     apply is0_false in Y1, Y2, Y3; specialize (K1 Y1); specialize (K2 Y2); specialize (K3 Y3); destruct S as [S1 [S2 S3]]).
    + apply sgn3_p; nra.
    + apply sgn3_n; nra.
  - destruct (act_edge_inv _ _ _ _ _ _ _ E) as [z [u [v [w [RT [O1 [O2 [O3 [H D]]]]]]]]]. exists z, u, v, w. split; auto.
    assert (W : seg p q' a b c = seg p q' u v w /\ kept p q q' (u, v, w) /\ nz1 p q' (u, v, w) /\ s_height u v w p <> 0 /\ s_height u v w q <> 0).
    { destruct RT as [RT|[RT|RT]]; cbn [rot] in RT; injection RT as _ _ _ -> -> ->.
      - auto.
      - rewrite (seg_rot p q' a b c). clear - KE NZ HP HQ. unfold kept, nz1 in *. rewrite <- !(height_rot a b c). tauto.
      - rewrite <- (seg_rot p q' c a b). clear - KE NZ HP HQ. unfold kept, nz1 in *. rewrite !(height_rot c a b). tauto. }
    destruct W as [-> [KE' [NZ' [HP' HQ']]]]. rewrite (seg_moved p q q' u v w HP' HQ' KE' NZ'). destruct (Rlt_dec (s_height u v w p * s_height u v w q) 0) as [L|L]; [|exfalso; lra].
    destruct KE' as [_ [Q2 [Q3 _]]]. specialize (Q2 O2). specialize (Q3 O3). destruct NZ' as [[W1 _] _].
    destruct (Rtotal_order 0 (s_orient p q' u v)) as [P|[P|P]]; [rewrite (sgz_pos _ P)|congruence|rewrite (sgz_neg _ P)]; destruct D as [[-> [D1 D2]]|[-> [D1 D2]]].
    + rewrite sgn3_p; auto; [apply (mul_pos_sign _ _ Q2); auto|apply (mul_pos_sign _ _ Q3); auto].
    + apply (mul_pos_sign _ _ Q2) in D1. rewrite sgn3_0; auto; intros [? [? ?]]; clear - P D1 H0 H1; lra.
    + apply (mul_pos_sign _ _ Q2) in D1. rewrite sgn3_0; auto; intros [? [? ?]]; clear - P D1 H0 H1; lra.
    + rewrite sgn3_n; auto; [apply (mul_pos_sign _ _ Q2); auto|apply (mul_pos_sign _ _ Q3); auto].
Qed.
