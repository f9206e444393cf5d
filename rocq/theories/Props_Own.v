(** * Properties C80-C82: who owns the nodes of octrees and height maps *)
From Coq Require Import ZArith NArith List Bool Lia.
From Verif Require Import Num MathTypes Outcome Mesh Box Octree HeightMap Own P_Own P_OwnH P_Float.
Import ListNotations.

(** ** C80: octrees *)
(** every object that the program names is alive: constructed and not yet destroyed.  [l] lists for each object whether it is alive. *)
Fixpoint s_alive_calls {T} (l : list bool) (ops : list (wop T)) : Prop :=
  let alive t := nth_error l t = Some true in
  match ops with
  | [] => True
  | WNew _ _ :: r => s_alive_calls (l ++ [true]) r
  | WCopy t :: r => alive t /\ s_alive_calls (l ++ [true]) r
  | WAssign _ _ :: r => False
  | WDestroy t :: r => alive t /\ s_alive_calls (firstn t l ++ [false] ++ skipn (S t) l) r
  | WMod t _ :: r => alive t /\ s_alive_calls l r
  | WAsk t q :: r => alive t /\ q <> QMesh /\ q <> QBBox /\ s_alive_calls l r
  end.

(** The pointer program computes what independent octree values compute: same answers, and it fails only where the value program fails *)
Theorem C80_refines : forall (T : Type) (NT : Num T) f (ops : list (wop T)),
  (forall t u, In (WAssign t u) ops -> t = u) ->
  exists G, forall g, (G <= g)%nat ->
  match v_run f [] ops with
  | Ret (answers, objects) => exists w, w_run f g w_empty ops = Ret (answers, w) /\
      (forall t, live objects t = None <-> live (w_objs w) t = None) /\
      ((forall t, live objects t = None) -> forall a, live (w_nodes w) a = None)
  | Exn => w_run f g w_empty ops = Exn
  | UB => w_run f g w_empty ops = UB
  | Fuel => w_run f g w_empty ops = Fuel
  end.
Proof.
  intros T NT f ops NA. assert (NA' : Forall no_assign ops). { apply Forall_forall. intros [] X; cbn; auto. }
  destruct (run_sim f ops [] w_empty NA' wrep_empty) as [G [r [E S]]]. exists G. intros g L. rewrite (E g L).
  destruct (v_run f [] ops) as [[l s]| | |], r as [[l' w]| | |]; cbn [osim fst snd] in S; try contradiction; auto.
  destruct S as [<- [LEN [FP [EN [DJ CV]]]]]. exists w. split; auto. split.
  - intros t. specialize (EN t). destruct (live (w_objs w) t), (live s t); cbn in EN; try contradiction; split; intros; congruence.
  - intros D a. destruct (live (w_nodes w) a) as [c|] eqn:LA; auto. destruct (CV _ _ LA) as [t X]. specialize (EN t). rewrite D in EN.
    destruct (live (w_objs w) t); cbn in EN; [contradiction|]. elim (EN a X).
Qed.

(** a program that only uses live octrees never has undefined behaviour (getMesh and getBoundingBox are left out here only because
    their vertex merging has undefined integer conversions of its own) *)
Lemma add_noub : forall (T : Type) (NT : Num T) f res (n : node T) p, n <> Null ->
  match node_add f res n p with Ret n' => n' <> Null | Fuel => True | _ => False end.
Proof.
  intros T NT. induction f as [|f IH]; intros res n p N; cbn [node_add]; auto. destruct n as [|s sp o ch]; [contradiction|].
  destruct (nltb _ _); [discriminate|].
  match goal with |- context [node_add f res ?c ?q] => pose proof (IH res c q) as H; destruct (node_add f res c q) end; cbn [obind]; auto; try discriminate.
  all: apply H; match goal with |- match ?c with _ => _ end <> _ => destruct c; discriminate end.
Qed.
Lemma raytrace_noub : forall (T : Type) (NT : Num T) f res (n : node T) o d t0 t1, n <> Null ->
  match node_raytrace f res n o d t0 t1 with Ret n' => n' <> Null | Fuel => True | _ => False end.
Proof.
  intros T NT. induction f as [|f IH]; intros res n o d t0 t1 N; cbn [node_raytrace]; auto. destruct n as [|s sp oc ch]; [contradiction|].
  destruct (nltb _ _); [discriminate|]. destruct (outside _ _); [discriminate|].
  match goal with |- context [match ch ?x ?y ?z with _ => _ end] => destruct (ch x y z) as [|s' sp' o' ch'] end; cbn [obind].
  - apply IH. discriminate.
  - match goal with |- context [node_raytrace f res (Node s' sp' o' ch') ?a ?b ?c ?e] => pose proof (IH res (Node s' sp' o' ch') a b c e ltac:(discriminate)) as H;
      destruct (node_raytrace f res (Node s' sp' o' ch') a b c e) end; cbn [obind]; auto. apply IH. discriminate.
Qed.
Lemma ray_noub : forall (T : Type) (NT : Num T) f res (n : node T) r t0 t1 d, n <> Null ->
  match node_ray f res n r t0 t1 d with Ret _ | Fuel => True | _ => False end.
Proof.
  intros T NT. induction f as [|f IH]; intros res n r t0 t1 d N; cbn [node_ray]; auto. destruct n as [|s sp oc ch]; [contradiction|].
  destruct oc; auto. destruct (outside _ _); auto.
  match goal with |- context [match ch ?x ?y ?z with _ => _ end] => destruct (ch x y z) as [|s' sp' o' ch'] end; cbn [obind].
  - apply IH. discriminate.
  - match goal with |- context [node_ray f res (Node s' sp' o' ch') ?a ?b ?c ?e] => pose proof (IH res (Node s' sp' o' ch') a b c e ltac:(discriminate)) as H;
      destruct (node_ray f res (Node s' sp' o' ch') a b c e) as [[[] d']| | |] end; cbn [obind]; auto. apply IH. discriminate.
Qed.
Lemma halve_noub : forall (T : Type) (NT : Num T) f (r q : T), match halve f r q with Ret _ | Fuel => True | _ => False end.
Proof. intros T NT. induction f as [|f IH]; intros; cbn; auto. destruct (nltb q r); auto. apply IH. Qed.
Definition flags_ok {T} (l : list bool) (s : heap (octree T)) : Prop :=
  length l = length s /\ forall t, nth_error l t = Some true -> exists o, live s t = Some o /\ o_root o <> Null.
Lemma flags_mod : forall T l (s : heap (octree T)) t o, flags_ok l s -> o_root o <> Null -> flags_ok l (upd s t (Some o)).
Proof.
  intros T l s t o [A B] R. split; [rewrite upd_len; auto|]. intros u U. destruct (B u U) as [o' [L N]].
  destruct (Nat.eq_dec t u) as [-> |NE]; [|rewrite upd_ne by auto; eauto].
  exists o. split; auto. apply upd_eq. eapply live_lt; eauto.
Qed.
Lemma flags_new : forall T l (s : heap (octree T)) o, flags_ok l s -> o_root o <> Null -> flags_ok (l ++ [true]) (s ++ [Some o]).
Proof.
  intros T l s o [A B] R. split; [rewrite !app_length; cbn; lia|]. intros u U. destruct (le_lt_dec (length l) u) as [G|G].
  - assert (u = length l). { assert (u < length (l ++ [true]))%nat by (apply nth_error_Some; congruence). rewrite app_length in H. cbn in H. lia. }
    subst u. rewrite A. exists o. split; auto. apply app_live_new.
  - rewrite nth_error_app1 in U by auto. destruct (B u U) as [o' [L N]]. exists o'. split; auto. rewrite app_live_old; auto. lia.
Qed.
Lemma nth_put : forall A (l : list A) t x, (t < length l)%nat -> forall u, nth_error (firstn t l ++ [x] ++ skipn (S t) l) u = if Nat.eqb u t then Some x else nth_error l u.
Proof.
  induction l as [|y l IH]; intros t x L u; cbn [length] in L; [lia|]. destruct t as [|t].
  - cbn. destruct u; auto.
  - cbn [firstn skipn app]. destruct u as [|u]; [reflexivity|]. cbn [nth_error Nat.eqb]. apply IH. lia.
Qed.
Lemma flags_free : forall T l (s : heap (octree T)) t, flags_ok l s -> nth_error l t = Some true -> flags_ok (firstn t l ++ [false] ++ skipn (S t) l) (upd s t None).
Proof.
  intros T l s t [A B] AL. assert (LT : (t < length l)%nat) by (apply nth_error_Some; congruence). split.
  - rewrite upd_len, !app_length, firstn_length, skipn_length. cbn [length]. lia.
  - intros u U. rewrite nth_put in U by auto. destruct (Nat.eqb_spec u t); [discriminate|]. destruct (B u U) as [o [L N]]. exists o. split; auto. rewrite upd_ne; auto.
Qed.
Lemma safe_v : forall (T : Type) (NT : Num T) f ops l (s : heap (octree T)), flags_ok l s -> s_alive_calls l ops ->
  match v_run f s ops with Ret _ | Fuel => True | _ => False end.
Proof.
  intros T NT f. induction ops as [|op ops IH]; intros l s FL OK; cbn [v_run]; auto.
  assert (K : match v_step f s op with Ret (_, s') => exists l', flags_ok l' s' /\ s_alive_calls l' ops | Fuel => True | _ => False end).
  { destruct op as [size req|t|t u|t|t m|t q]; cbn [s_alive_calls v_step] in *.
    - unfold oct_new, oct_setRes. cbn [o_size]. pose proof (halve_noub T NT f size req). destruct (halve f size req); cbn; auto.
      exists (l ++ [true]). split; auto. apply flags_new; auto. discriminate.
    - destruct OK as [A OK]. destruct (proj2 FL t A) as [o [L N]]. rewrite (rd_live _ _ _ L). cbn. exists (l ++ [true]). split; auto. apply flags_new; auto.
      cbn [oct_copy o_root]. destruct (o_root o); [contradiction|discriminate].
    - contradiction.
    - destruct OK as [A OK]. destruct (proj2 FL t A) as [o [L N]]. rewrite (free_live _ _ _ L). cbn. eexists. split; [|exact OK]. apply (flags_free _ _ _ _ FL A).
    - destruct OK as [A OK]. destruct (proj2 FL t A) as [o [L N]]. rewrite (rd_live _ _ _ L). cbn [obind].
      assert (V : match v_mod f o m with Ret o' => o_root o' <> Null | Fuel => True | _ => False end).
      { destruct m as [p| |req|r t0 t1|m]; cbn [v_mod]; auto; try discriminate.
        - unfold oct_add. pose proof (add_noub T NT f (o_res o) (o_root o) (vsub p (o_off o)) N). destruct (node_add _ _ _ _); cbn; auto.
        - unfold oct_setRes. pose proof (halve_noub T NT f (o_size o) req). destruct (halve _ _ _); cbn; auto.
        - unfold oct_raytrace. destruct (box_ray _ _ _ _ _) as [hit dist]. destruct (negb hit); auto.
          match goal with |- context [node_raytrace f ?a ?b ?c ?d ?e ?g] => pose proof (raytrace_noub T NT f a b c d e g N) as H; destruct (node_raytrace f a b c d e g) end; cbn [obind]; auto.
          unfold oct_add. cbn [o_res o_root o_off].
          match goal with |- context [node_add f ?a ?b ?c] => pose proof (add_noub T NT f a b c H) as H'; destruct (node_add f a b c) end; cbn [obind o_root]; auto. }
      destruct (v_mod f o m) as [o'| | |]; cbn [obind]; auto. rewrite (wr_live _ _ _ _ L). cbn [obind]. exists l. split; auto. apply flags_mod; auto.
    - destruct OK as [A [Q1 [Q2 OK]]]. destruct (proj2 FL t A) as [o [L N]]. rewrite (rd_live _ _ _ L). cbn [obind].
      assert (V : match v_query f o q with Ret (_, o') => o_root o' <> Null | Fuel => True | _ => False end).
      { destruct q as [|p|b|r t0 t1 d| | | | | ]; cbn [v_query]; auto; try contradiction.
        unfold oct_ray. destruct (box_ray _ _ _ _ _) as [hit dist]. destruct (negb hit); cbn [obind]; auto.
        match goal with |- context [node_ray f ?a ?b ?c ?d ?e ?g] => pose proof (ray_noub T NT f a b c d e g N) as H; destruct (node_ray f a b c d e g) end; cbn [obind]; auto. }
      destruct (v_query f o q) as [[a o']| | |]; cbn [obind snd fst]; auto. rewrite (wr_live _ _ _ _ L). cbn [obind]. exists l. split; auto. apply flags_mod; auto. }
  destruct (v_step f s op) as [[a s']| | |]; cbn [obind]; auto. destruct K as [l' [FL' OK']]. specialize (IH l' s' FL' OK'). cbn [snd].
  destruct (v_run f s' ops); cbn; auto.
Qed.
Theorem C80_safe : forall (T : Type) (NT : Num T) f (ops : list (wop T)), s_alive_calls [] ops ->
  exists G, forall g, (G <= g)%nat -> w_run f g w_empty ops <> UB /\ w_run f g w_empty ops <> Exn.
Proof.
  intros T NT f ops OK.
  assert (NA : forall t u, In (WAssign t u) ops -> t = u).
  { clear f. revert OK. generalize (@nil bool). induction ops as [|op ops IH]; intros l OK t u X; [contradiction|].
    destruct X as [-> |X]; [contradiction|]. destruct op; cbn [s_alive_calls] in OK; repeat (destruct OK as [? OK]); try contradiction; eapply IH; eauto. }
  destruct (C80_refines T NT f ops NA) as [G E]. exists G. intros g L. specialize (E g L).
  pose proof (safe_v T NT f ops [] [] ltac:(split; [reflexivity|intros [|]; discriminate]) OK) as V.
  destruct (v_run f [] ops) as [[l s]| | |]; try contradiction.
  - destruct E as [w [-> _]]. split; discriminate.
  - rewrite E. split; discriminate.
Qed.
(** a call on one octree does not change what another one answers *)
Theorem C80_isolated : forall (T : Type) (NT : Num T) f (ops : list (wop T)) t m u q,
  (forall t u, In (WAssign t u) ops -> t = u) -> t <> u ->
  exists G, forall g, (G <= g)%nat -> forall l w w' a2, w_run f g w_empty ops = Ret (l, w) -> w_mod f g w t m = Ret w' -> w_query f g w u q = Ret a2 ->
  exists a1, w_query f g w' u q = Ret a1 /\ fst a1 = fst a2.
Proof.
  intros T NT f ops t m u q NA NE. assert (NA' : Forall no_assign ops). { apply Forall_forall. intros [] X; cbn; auto. }
  destruct (run_sim f ops [] w_empty NA' wrep_empty) as [G [r [E S]]].
  destruct r as [[l0 w0]| | |]; [|exists G; intros g L l w w' a2 X; rewrite (E g L) in X; discriminate..].
  destruct (v_run f [] ops) as [[l s]| | |]; cbn [osim fst snd] in S; try contradiction. destruct S as [_ W].
  destruct (mod_sim f s w0 t m W) as [G1 [r1 [E1 S1]]]. destruct (query_sim f s w0 u q W) as [G2 [r2 [E2 S2]]].
  destruct r1 as [[a1 w1]| | |].
  2-4: exists (Nat.max G G1); intros g L l' w w' a2 X Y Z; rewrite (E g) in X by lia; injection X as <- <-; specialize (E1 g ltac:(lia)); cbn [w_step] in E1; rewrite Y in E1; discriminate.
  cbn [v_step] in S1. pose proof (wrep_get w0 s t W) as Gt.
  destruct (rd s t) as [o| | |], (rd (w_objs w0) t) as [ob| | |] eqn:RO; cbn [osim obind] in *; try contradiction.
  destruct Gt as [SM [LS LO]]. destruct (v_mod f o m) as [o'| | |]; cbn [obind] in S1; try contradiction.
  rewrite (wr_live _ _ _ _ LS) in S1. cbn in S1. destruct S1 as [_ W1].
  destruct (query_sim f _ w1 u q W1) as [G3 [r3 [E3 S3]]].
  exists (Nat.max (Nat.max G G1) (Nat.max G2 G3)). intros g L l' w w' a2 X Y Z.
  rewrite (E g) in X by lia. injection X as <- <-. specialize (E1 g ltac:(lia)). cbn [w_step] in E1. rewrite Y in E1. cbn in E1. injection E1 as <- <-.
  specialize (E2 g ltac:(lia)). cbn [w_step] in E2. rewrite Z in E2. subst r2. specialize (E3 g ltac:(lia)). cbn [w_step] in E3. rewrite E3.
  cbn [v_step] in S2, S3. assert (RU : rd (upd s t (Some o')) u = rd s u) by (unfold rd; now rewrite upd_ne).
  rewrite RU in S3. destruct (rd s u) as [ou| | |] eqn:EU; cbn [obind wsim osim] in S2, S3; try contradiction.
  destruct (v_query f ou q) as [[a o2]| | |]; cbn [obind wsim osim fst snd] in S2, S3; try contradiction.
  assert (LU : live s u = Some ou) by (unfold rd in EU; destruct (live s u); [injection EU as <-; auto|discriminate]).
  rewrite (wr_live _ _ _ _ LU) in S2. rewrite (wr_live _ u ou) in S3 by (rewrite upd_ne; auto). cbn [obind wsim osim fst snd] in S2, S3.
  destruct a2 as [a2 w2]. destruct r3 as [[a3 w3]| | |]; cbn [fst snd] in *; try contradiction. destruct S2 as [-> _]. destruct S3 as [<- _]. eexists. split; [reflexivity|auto].
Qed.
(** non-vacuity: two octrees, the second a copy of the first; a point is added to the copy only; at the end no block is left *)
Local Definition fz (z : Z) : F64 := nofZ z.
Local Definition dv (x y z : Z) : vec3 F64 := V3 (nlit x 10) (nlit y 10) (nlit z 10).
Definition prog80 : list (wop F64) :=
  [WNew (fz 4) (fz 1); WMod 0 (MAdd (dv 5 5 5)); WCopy 0; WMod 1 (MAdd (dv 15 15 15)); WAsk 0 QCubes; WAsk 1 QCubes; WMod 1 MClear; WAsk 0 QCubes; WDestroy 0; WAsk 1 QCubes; WDestroy 1].
Definition ncubes (a : ans F64) : nat := match a with ACubes l => length l | _ => 99%nat end.
Example C80_alive : s_alive_calls [] prog80.
Proof. cbn. repeat split; discriminate. Qed.
Example C80_run : exists l w, w_run 20 20 w_empty prog80 = Ret (l, w) /\ map ncubes l = [99; 99; 99; 99; 1; 2; 99; 1; 99; 0; 99]%nat /\ in_use (w_nodes w) = 0%nat.
Proof.
  destruct (oret_ex _ (w_run 20 20 w_empty prog80) (fun o => if list_eq_dec Nat.eq_dec (map ncubes (fst o)) [99; 99; 99; 99; 1; 2; 99; 1; 99; 0; 99]%nat then Nat.eqb (in_use (w_nodes (snd o))) 0 else false)) as [o [N C]].
  { vm_compute. reflexivity. }
  exists (fst o), (snd o). rewrite <- surjective_pairing. split; [exact N|]. clear N. destruct (list_eq_dec _ _ _) as [E|NE]; [split; [exact E|apply Nat.eqb_eq; exact C]|discriminate C].
Qed.

(** ** C81: copy assignment *)
(** After t = u both objects own the same nodes, so destroying both frees them twice: undefined behaviour, whatever the program did
    before and in whichever order the two go out of scope *)
Theorem C81_double_free : forall (T : Type) (NT : Num T) f (ops : list (wop T)) t u,
  (forall t u, In (WAssign t u) ops -> t = u) -> t <> u ->
  exists G, forall g, (G <= g)%nat -> forall l w x y, w_run f g w_empty ops = Ret (l, w) ->
  live (w_objs w) t <> None -> live (w_objs w) u <> None -> (x, y) = (t, u) \/ (x, y) = (u, t) ->
  w_run f g w [WAssign t u; WDestroy x; WDestroy y] = UB.
Proof.
  intros T NT f ops t u NA NE. assert (NA' : Forall no_assign ops). { apply Forall_forall. intros [] X; cbn; auto. }
  destruct (run_sim f ops [] w_empty NA' wrep_empty) as [G [r [E S]]].
  destruct r as [[l0 w0]| | |]; [|exists G; intros g L l w x y X; rewrite (E g L) in X; discriminate..].
  destruct (v_run f [] ops) as [[l s]| | |]; cbn [osim fst snd] in S; try contradiction. destruct S as [_ W].
  destruct (live s u) as [ov|] eqn:LS.
  2:{ exists G. intros g L l' w x y X At Au. rewrite (E g L) in X. injection X as <- <-. destruct W as [_ [FP [EN _]]]. specialize (EN u). rewrite LS in EN.
      destruct (live (w_objs w0) u); [contradiction|congruence]. }
  exists (Nat.max G (depth (o_root ov))). intros g L l' w x y X At Au XY. rewrite (E g) in X by lia. injection X as <- <-.
  destruct (live (w_objs w0) t) as [ot|] eqn:LT; [|congruence]. destruct (live (w_objs w0) u) as [ou|] eqn:LU; [|congruence].
  destruct (wrep_rep w0 s u ou ov W LS LU) as [F R].
  destruct (delete_rep (o_root ov) g (w_nodes w0) u (q_root ou) F R ltac:(lia)) as [h' [D [_ [GONE _]]]].
  assert (LTu : live (upd (w_objs w0) t (Some ou)) u = Some ou) by (rewrite upd_ne; auto).
  assert (LTt : live (upd (w_objs w0) t (Some ou)) t = Some ou) by (apply upd_eq; eapply live_lt; eauto).
  cbn [w_run w_step w_assign]. unfold w_assign. rewrite (rd_live _ _ _ LU). cbn [obind]. rewrite (wr_live _ _ _ _ LT). cbn [obind snd].
  assert (X : live (upd (w_objs w0) t (Some ou)) x = Some ou /\ live (upd (w_objs w0) t (Some ou)) y = Some ou /\ x <> y).
  { destruct XY as [XY|XY]; injection XY as -> ->; auto. }
  destruct X as [X [Y XNY]]. unfold w_destroy. cbn [w_objs w_nodes]. rewrite (rd_live _ _ _ X). cbn [obind]. rewrite D. cbn [obind].
  rewrite (free_live _ _ _ X). cbn [obind snd w_objs w_nodes]. unfold rd. rewrite upd_ne by auto. rewrite Y. cbn [or_ub obind].
  assert (Z : p_delete g h' (q_root ou) = UB).
  { destruct g as [|g]; [|cbn [p_delete]; unfold rd; rewrite (GONE (q_root ou)) by (eapply rep_root; eauto); reflexivity].
    destruct (rep_some _ _ _ _ _ R) as [a [b [c [d Q]]]]. rewrite Q in L. cbn in L. lia. }
  rewrite Z. reflexivity.
Qed.
(** the full claim: an octree that was assigned to is an octree of its own.  False: a point added to one appears in the other *)
Theorem C81_alias_refuted : exists (p : vec3 F64) l w,
  w_run 20 20 w_empty [WNew (fz 4) (fz 1); WNew (fz 4) (fz 1); WAssign 0 1; WMod 0 (MAdd p); WAsk 1 (QContains p)] = Ret (l, w) /\
  nth_error l 4 = Some (ABool true) /\
  exists l' w', w_run 20 20 w_empty [WNew (fz 4) (fz 1); WNew (fz 4) (fz 1); WAssign 0 1; WAsk 1 (QContains p)] = Ret (l', w') /\ nth_error l' 3 = Some (ABool false).
Proof.
  exists (dv 15 15 15).
  destruct (oret_ex _ (w_run 20 20 w_empty [WNew (fz 4) (fz 1); WNew (fz 4) (fz 1); WAssign 0 1; WMod 0 (MAdd (dv 15 15 15)); WAsk 1 (QContains (dv 15 15 15))])
    (fun o => match nth_error (fst o) 4 with Some (ABool b) => b | _ => false end)) as [o [N C]]; [vm_compute; reflexivity|].
  exists (fst o), (snd o). rewrite <- surjective_pairing. split; [exact N|]. clear N. split.
  { destruct (nth_error (fst o) 4) as [[| [] | | | | |]|]; [discriminate C|reflexivity|discriminate C..]. }
  clear. destruct (oret_ex _ (w_run 20 20 w_empty [WNew (fz 4) (fz 1); WNew (fz 4) (fz 1); WAssign 0 1; WAsk 1 (QContains (dv 15 15 15))])
    (fun o => match nth_error (fst o) 3 with Some (ABool b) => negb b | _ => false end)) as [o [N C]]; [vm_compute; reflexivity|].
  exists (fst o), (snd o). rewrite <- surjective_pairing. split; [exact N|]. clear N.
  destruct (nth_error (fst o) 3) as [[| [] | | | | |]|]; [discriminate C|discriminate C|reflexivity|discriminate C..].
Qed.
(** two octrees, one assigned to the other, both going out of scope *)
Theorem C81_scope_refuted : exists ops : list (wop F64), ops = [WNew (fz 4) (fz 1); WNew (fz 4) (fz 1); WAssign 0 1; WDestroy 1; WDestroy 0] /\
  forall g, (1 <= g)%nat -> w_run 20 g w_empty ops = UB.
Proof.
  eexists. split; [reflexivity|]. intros [|g] L; [lia|]. clear L. vm_compute. reflexivity.
Qed.
(** the same for height maps that have a tree *)
Theorem C81_heightmap : forall (T : Type) (NT : Num T) f (ops : list (hop T)) t u answers s m,
  (forall t u, ~ In (HAssign t u) ops) -> t <> u ->
  hv_run f [] ops = Ret (answers, s) -> nth_error s u = Some (m, true) -> (exists m', nth_error s t = Some (m', true)) -> hm_root m <> HNull ->
  exists G, forall g, (G <= g)%nat -> forall x y, (x, y) = (t, u) \/ (x, y) = (u, t) ->
  hw_run f g hw_empty (ops ++ [HAssign t u; HDestroy x; HDestroy y]) = UB.
Proof.
  intros T NT f ops t u an s m NA NE V NU [mt NT'] RT. assert (NA' : Forall hno_assign ops). { apply Forall_forall. intros [] X; cbn; auto. elim (NA _ _ X). }
  destruct (hrun_sim f ops [] hw_empty NA' hrep_empty) as [G [r [E S]]]. rewrite V in S. destruct r as [[l w]| | |]; cbn [osim fst snd] in S; try contradiction.
  destruct S as [_ W]. exists G. intros g L x y XY. specialize (E g L). clear V NA NA'.
  assert (HR : hw_run f g w [HAssign t u; HDestroy x; HDestroy y] = UB).
  { pose proof (hrep_obj w s t W) as Ot. pose proof (hrep_obj w s u W) as Ou. rewrite NU in Ou. rewrite NT' in Ot.
    pose proof (hrep_seg w s u m W NU) as SG. set (lo := total (firstn u s)) in *. set (ou := HObj (hm_base m) (hptr lo (hm_root m))) in *.
    assert (ER : ho_root ou = Some lo) by (unfold ou; cbn; destruct (hm_root m); [contradiction|reflexivity]).
    assert (LL : exists c, live (hw_nodes w) lo = Some c).
    { destruct (hm_root m); [contradiction|]. cbn [flat] in SG. cbv zeta in SG. apply seg_cons in SG. destruct SG as [LA _]. eauto. }
    destruct LL as [c LL]. clearbody ou lo.
    set (ot := HObj (hm_base mt) _) in Ot. clearbody ot.
    assert (X : live (upd (hw_objs w) t (Some ou)) x = Some ou /\ live (upd (hw_objs w) t (Some ou)) y = Some ou /\ x <> y).
    { assert (live (upd (hw_objs w) t (Some ou)) u = Some ou) by (rewrite upd_ne; auto).
      assert (live (upd (hw_objs w) t (Some ou)) t = Some ou) by (apply upd_eq; eapply live_lt; eauto).
      destruct XY as [XY|XY]; injection XY as -> ->; auto. }
    destruct X as [X [Y XNY]].
    cbn [hw_run hw_step]. rewrite (rd_live _ _ _ Ou). cbn [obind]. rewrite (wr_live _ _ _ _ Ot). cbn [obind snd hw_objs hw_nodes].
    rewrite (rd_live _ _ _ X). cbn [obind]. rewrite ER. unfold h_delete. rewrite (free_live _ _ _ LL). cbn [obind].
    rewrite (free_live _ _ _ X). cbn [obind snd hw_objs hw_nodes]. unfold rd. rewrite upd_ne by auto. rewrite Y. cbn [or_ub obind]. rewrite ER.
    unfold free, rd. rewrite upd_eq by (eapply live_lt; eauto). reflexivity. }
  revert E. generalize (@hw_empty T). clear - HR. revert l. induction ops as [|op ops IH]; intros l w0 E; cbn [hw_run app] in *.
  - injection E as <- <-. exact HR.
  - destruct (hw_step f g w0 op) as [[a w1]| | |]; cbn [obind snd fst] in *; try discriminate.
    destruct (hw_run f g w1 ops) as [[l2 w2]| | |] eqn:E2; cbn [obind snd fst] in *; try discriminate. injection E as <- <-. rewrite (IH l2 w1 E2). reflexivity.
Qed.

(** ** C82: height maps *)
(** the pointer program answers as independent height map values do, it fails only where they do, and the number of blocks it still
    holds is the number of nodes of the live maps plus, for each destroyed map, all its nodes but the root *)
Theorem C82_refines : forall (T : Type) (NT : Num T) f (ops : list (hop T)), (forall t u, ~ In (HAssign t u) ops) ->
  exists G, forall g, (G <= g)%nat ->
  match hv_run f [] ops with
  | Ret (answers, maps) => exists w, hw_run f g hw_empty ops = Ret (answers, w) /\
      in_use (hw_nodes w) = list_sum (map (fun m : hmap T * bool => let (m, alive) := m in if alive then hsize (hm_root m) else (hsize (hm_root m) - 1)%nat) maps)
  | Exn => hw_run f g hw_empty ops = Exn
  | UB => hw_run f g hw_empty ops = UB
  | Fuel => hw_run f g hw_empty ops = Fuel
  end.
Proof.
  intros T NT f ops NA. assert (NA' : Forall hno_assign ops). { apply Forall_forall. intros [] X; cbn; auto. elim (NA _ _ X). }
  destruct (hrun_sim f ops [] hw_empty NA' hrep_empty) as [G [r [E S]]]. exists G. intros g L. rewrite (E g L).
  destruct (hv_run f [] ops) as [[l s]| | |], r as [[l' w]| | |]; cbn [osim fst snd] in S; try contradiction; auto.
  destruct S as [<- [HN _]]. exists w. split; auto. rewrite HN, heapof_use. f_equal. apply map_ext. intros [m []]; cbn; auto. unfold kept. cbn [fst snd]. lia.
Qed.
(** the full claim: once every height map is destroyed no node is left.  It holds exactly when no map had more than one node *)
Theorem C82_no_leak_iff : forall (T : Type) (NT : Num T) f (ops : list (hop T)) answers maps, (forall t u, ~ In (HAssign t u) ops) ->
  hv_run f [] ops = Ret (answers, maps) -> (forall m, In m maps -> snd m = false) ->
  exists G, forall g, (G <= g)%nat -> exists w, hw_run f g hw_empty ops = Ret (answers, w) /\
    (in_use (hw_nodes w) = 0%nat <-> forall m, In m maps -> (hsize (hm_root (fst m)) <= 1)%nat).
Proof.
  intros T NT f ops an s NA V D. destruct (C82_refines T NT f ops NA) as [G E]. exists G. intros g L. specialize (E g L). rewrite V in E.
  destruct E as [w [E U]]. exists w. split; auto. rewrite U. clear - D. induction s as [|[m b] s IH]; cbn [map list_sum fold_right].
  - split; auto. intros _ m [].
  - assert (B : b = false) by exact (D (m, b) (or_introl eq_refl)). subst b.
    assert (D' : forall m, In m s -> snd m = false) by (intros; apply D; now right). specialize (IH D'). unfold list_sum in IH. split.
    + intros Z x [<-|X]; [cbn; lia|]. apply (proj1 IH); [lia|auto].
    + intros Z. pose proof (Z (m, false) (or_introl eq_refl)) as Z1. cbn [fst] in Z1. assert (fold_right Nat.add 0 (map (fun m : hmap T * bool => let (m0, alive) := m in if alive then hsize (hm_root m0) else (hsize (hm_root m0) - 1)%nat) s) = 0)%nat by (apply IH; intros; apply Z; now right). lia.
Qed.
(** a height map of two cells, created and destroyed: nodes are left that nothing refers to *)
Definition grid82 : list (list F64) := [[fz 1; fz 1]; [fz 1; fz 1]].
Theorem C82_leak_refuted : exists l w, hw_run 20 20 hw_empty [HFrom grid82 (fz 1); HDestroy 0] = Ret (l, w) /\
  live (hw_objs w) 0 = None /\ in_use (hw_nodes w) = 4%nat.
Proof.
  destruct (oret_ex _ (hw_run 20 20 hw_empty [HFrom grid82 (fz 1); HDestroy 0]) (fun o => negb (isome (live (hw_objs (snd o)) 0)) && Nat.eqb (in_use (hw_nodes (snd o))) 4)) as [o [N C]].
  { vm_compute. reflexivity. }
  exists (fst o), (snd o). rewrite <- surjective_pairing. split; [exact N|]. clear N. apply andb_true_iff in C. destruct C as [A B]. split.
  - destruct (live (hw_objs (snd o)) 0); [discriminate A|reflexivity].
  - apply Nat.eqb_eq. exact B.
Qed.
(** non-vacuity: build, copy, destroy the original, ask the copy *)
Definition prog82 : list (hop F64) :=
  [HFrom grid82 (fz 1); HCopy 0; HDestroy 0; HAsk 1 (ray_make (V3 (fz (-1)) (nlit 1 4) (nlit 1 4)) (V3 (fz 1) (nlit 1 8) (nlit 1 8))) (fz 0) (fz 10) (fz 0); HDestroy 1].
Example C82_run : exists l w, hw_run 20 20 hw_empty prog82 = Ret (l, w) /\ (exists d, nth_error l 3 = Some (Some (true, d))) /\ in_use (hw_nodes w) = 8%nat /\
  exists l' s, hv_run 20 [] prog82 = Ret (l', s) /\ map (fun m => hsize (hm_root (fst m))) s = [5; 5]%nat.
Proof.
  destruct (oret_ex _ (hw_run 20 20 hw_empty prog82) (fun o => match nth_error (fst o) 3 with Some (Some (true, _)) => Nat.eqb (in_use (hw_nodes (snd o))) 8 | _ => false end)) as [o [N C]].
  { vm_compute. reflexivity. }
  exists (fst o), (snd o). rewrite <- surjective_pairing. split; [exact N|]. clear N.
  split; [|split].
  - destruct (nth_error (fst o) 3) as [[[[] d]|]|]; [exists d; reflexivity|discriminate C..].
  - destruct (nth_error (fst o) 3) as [[[[] d]|]|]; [apply Nat.eqb_eq; exact C|discriminate C..].
  - clear. destruct (oret_ex _ (hv_run 20 [] prog82) (fun o => if list_eq_dec Nat.eq_dec (map (fun m => hsize (hm_root (fst m))) (snd o)) [5; 5]%nat then true else false)) as [o [N C]].
    { vm_compute. reflexivity. }
    exists (fst o), (snd o). rewrite <- surjective_pairing. split; [exact N|]. clear N. destruct (list_eq_dec _ _ _) as [E|NE]; [exact E|discriminate C].
Qed.
Print Assumptions C80_refines.
Print Assumptions C80_safe.
Print Assumptions C80_isolated.
Print Assumptions C81_double_free.
Print Assumptions C81_alias_refuted.
Print Assumptions C81_scope_refuted.
Print Assumptions C81_heightmap.
Print Assumptions C82_refines.
Print Assumptions C82_no_leak_iff.
Print Assumptions C82_leak_refuted.
