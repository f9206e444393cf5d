(** Lemmas about the laser range finder *)
From Coq Require Import ZArith NArith List Bool Lia Reals Lra.
From Flocq Require Import Core.Raux.
From Verif Require Import Num MathTypes Outcome Mesh Spec P_Tac P_Math P_Trig P_Mesh P_MeshGeo Laser SpecLaser.
Import ListNotations.
Local Open Scope R_scope.

(** ** the beam table *)
Definition table_ok (l : lrf R) : Prop :=
  l_incr l = s_incr (l_amin l) (l_amax l) (l_num l) /\
  l_angles l = map (s_beam (l_amin l) (l_amax l) (l_num l)) (seq 0 (N.to_nat (l_num l))) /\
  l_rays l = map (fun a => V3 (cos a) (sin a) 0) (l_angles l) /\
  Z.of_N (l_half l) = Ztrunc (PI / l_incr l).
Lemma beam_angles_R : forall n (a d : R), beam_angles n a d = map (fun i => a + INR i * d) (seq 0 n).
Proof.
  induction n as [|n IH]; intros a d; [reflexivity|]. cbn [beam_angles seq map]. f_equal; [cbn; lra|].
  rewrite IH, <- seq_shift, map_map. apply map_ext. intros i. unR. rewrite S_INR. lra.
Qed.
Lemma incr_R : forall (a b : R) n, (0 < n < 4294967296)%N -> (b - a) / nofZ (Z.of_N (N.max (u32 (n + 4294967295)) 1)) = s_incr a b n.
Proof.
  intros a b n H. unfold s_incr, u32. replace (n + 4294967295)%N with (n - 1 + 1 * 4294967296)%N by lia. rewrite N.mod_add, N.mod_small by lia.
  destruct (N.leb_spec n 1).
  - replace (N.max (n - 1) 1) with 1%N by lia. unR. cbn. lra.
  - replace (N.max (n - 1) 1) with (n - 1)%N by lia. unR. rewrite N2Z.inj_sub by lia. rewrite minus_IZR. reflexivity.
Qed.
Lemma touint_R : forall (x : R) n, touint x = Some n -> Z.of_N n = Ztrunc x.
Proof. intros x n. unfold touint. unR. destruct (Z.leb_spec 0 (Ztrunc x)), (Z.leb_spec (Ztrunc x) 4294967295); cbn; intros [= <-]; lia. Qed.
Lemma touint_ret : forall x : R, 0 <= x < IZR 4294967296 -> exists n, touint x = Some n.
Proof.
  intros x [A B]. unfold touint. unR. assert (0 <= Ztrunc x < 4294967296)%Z.
  { rewrite Ztrunc_floor by auto. split; [apply Zfloor_lub; auto|]. apply lt_IZR. apply Rle_lt_trans with x; [apply Zfloor_lb|auto]. }
  destruct (Z.leb_spec 0 (Ztrunc x)), (Z.leb_spec (Ztrunc x) 4294967295); try lia. cbn. eauto.
Qed.
Lemma calc_R : forall (l l' : lrf R), (0 < l_num l < 4294967296)%N -> calculateRays l = Ret l' ->
  l_amin l' = l_amin l /\ l_amax l' = l_amax l /\ l_num l' = l_num l /\ l_rmin l' = l_rmin l /\ l_rmax l' = l_rmax l /\ table_ok l'.
Proof.
  intros l l' N H. unfold calculateRays in H. unR. rewrite incr_R in H by auto.
  destruct (touint (PI / s_incr (l_amin l) (l_amax l) (l_num l))) as [h|] eqn:E; [|discriminate]. cbn [or_ub obind] in H. injection H as <-.
  cbn. repeat split.
  - cbn. rewrite beam_angles_R. reflexivity.
  - cbn. apply map_ext. intros a. unfold polarTo2D. unR. unfold vscale. unR. fields. apply V3_eq; ring.
  - cbn. apply touint_R; auto.
Qed.
Lemma calc_ret : forall l : lrf R, (0 < l_num l < 4294967296)%N -> 0 < l_amax l - l_amin l -> PI / s_incr (l_amin l) (l_amax l) (l_num l) < IZR 4294967296 -> exists l', calculateRays l = Ret l'.
Proof.
  intros l N A B. unfold calculateRays. unR. rewrite incr_R by auto.
  assert (I : 0 < s_incr (l_amin l) (l_amax l) (l_num l)).
  { unfold s_incr. destruct (N.leb_spec (l_num l) 1); auto. apply Rmult_lt_0_compat; auto. apply Rinv_0_lt_compat.
    assert (IZR 2 <= IZR (Z.of_N (l_num l))) by (apply IZR_le; lia). lra. }
  destruct (touint_ret (PI / s_incr (l_amin l) (l_amax l) (l_num l))) as [h E].
  { split; auto. apply Rmult_le_pos; [pose proof PI_RGT_0; lra|left; apply Rinv_0_lt_compat; auto]. }
  rewrite E. cbn. eauto.
Qed.
(* state invariant of any configuration history *)
Definition lrf_inv (l : lrf R) : Prop := (l_num l < 4294967296)%N /\ ((0 < l_num l)%N -> 0 < l_amax l - l_amin l -> table_ok l).
Lemma lrf_step_inv : forall l o l', lrf_inv l -> lrf_step l o = Ret l' -> lrf_inv l'.
Proof.
  intros l o l' [NB I] H. destruct o as [mn mx|n|mn mx]; cbn [lrf_step] in H.
  - unfold setAngleLimits in H. cbn [l_num l_amax l_amin] in H. unR. destruct (N.ltb_spec 0 (l_num l)); cbn [andb] in H.
    + destruct (Rltb 0 (mx - mn)) eqn:B.
      * apply calc_R in H; [|cbn; lia]. cbn [l_num l_amax l_amin l_rmin l_rmax] in H. destruct H as [E1 [E2 [E3 [_ [_ E4]]]]]. split; [lia|auto].
      * apply Rltb_false in B. injection H as <-. split; [cbn; auto|]. cbn. intros; lra.
    + injection H as <-. split; cbn; auto. intros; lia.
  - unfold setNumBeams in H. assert (U : (u32 n < 4294967296)%N) by (unfold u32; apply N.mod_lt; lia). cbn [l_num l_amax l_amin] in H. unR. destruct (N.ltb_spec 0 (u32 n)); cbn [andb] in H.
    + destruct (Rltb 0 (l_amax l - l_amin l)) eqn:B.
      * apply calc_R in H; [|cbn; lia]. cbn [l_num l_amax l_amin l_rmin l_rmax] in H. destruct H as [E1 [E2 [E3 [_ [_ E4]]]]]. split; [lia|auto].
      * apply Rltb_false in B. injection H as <-. split; [cbn; auto|]. cbn. intros; lra.
    + injection H as <-. split; cbn; auto. intros; lia.
  - injection H as <-. split; cbn; auto.
Qed.
Lemma lrf_run_inv : forall ops l l', lrf_inv l -> lrf_run l ops = Ret l' -> lrf_inv l'.
Proof.
  induction ops as [|o ops IH]; intros l l' I H; [injection H as <-; auto|]. cbn [lrf_run] in H. destruct (lrf_step l o) as [l1| | |] eqn:E; try discriminate.
  cbn [obind] in H. eapply IH; [|exact H]. eapply lrf_step_inv; eauto.
Qed.
Lemma lrf_new_inv : lrf_inv lrf_new. Proof. split; cbn; [lia|intros; lia]. Qed.
Lemma incr_pos : forall a b n, 0 < b - a -> 0 < s_incr a b n.
Proof.
  intros a b n A. unfold s_incr. destruct (N.leb_spec n 1); auto. apply Rmult_lt_0_compat; auto. apply Rinv_0_lt_compat.
  assert (IZR 2 <= IZR (Z.of_N n)) by (apply IZR_le; lia). lra.
Qed.

(** ** beam lookup *)
Lemma trunc_up : forall x (k : nat), 0 <= x \/ x <= -1 -> ((Ztrunc x + 1 <= Z.of_nat k)%Z <-> x < INR k).
Proof.
  intros x k H. rewrite INR_IZR_INZ. destruct H as [H|H].
  - rewrite Ztrunc_floor by auto. pose proof (Zfloor_lb x). pose proof (Zfloor_ub x). split; intros G.
    + apply IZR_le in G. rewrite plus_IZR in G. lra.
    + assert (Zfloor x < Z.of_nat k)%Z; [|lia]. apply lt_IZR. lra.
  - rewrite Ztrunc_ceil by lra. split; intros G.
    + apply Rlt_le_trans with 0; [lra|]. apply IZR_le. lia.
    + assert (Zceil x <= -1)%Z by (apply Zceil_glb; auto). lia.
Qed.
Definition in_int (x : R) : Prop := IZR (-2147483648) < x < IZR 2147483647.
Lemma in_int_trunc : forall x, in_int x -> (-2147483648 <= Ztrunc x < 2147483647)%Z.
Proof.
  intros x [A B]. destruct (Rle_or_lt 0 x).
  - rewrite Ztrunc_floor by auto. assert (0 <= Zfloor x)%Z by (apply Zfloor_lub; auto). assert (Zfloor x < 2147483647)%Z; [|lia].
    apply lt_IZR. apply Rle_lt_trans with x; [apply Zfloor_lb|auto].
  - rewrite Ztrunc_ceil by lra. assert (Zceil x <= 0)%Z by (apply Zceil_glb; lra). assert (-2147483648 < Zceil x)%Z; [|lia].
    apply lt_IZR. apply Rlt_le_trans with x; [auto|apply Zceil_ub].
Qed.
Lemma raw_R : forall (l : lrf R) a, in_int ((a - l_amin l) / l_incr l) -> angleRaw l a = Ret (Ztrunc ((a - l_amin l) / l_incr l) + 1)%Z.
Proof.
  intros l a H. apply in_int_trunc in H. unfold angleRaw. unR.
  assert (E : toint ((a - l_amin l) / l_incr l) = Some (Ztrunc ((a - l_amin l) / l_incr l))).
  { unfold toint. unR. destruct (Z.leb_spec (-2147483648) (Ztrunc ((a - l_amin l) / l_incr l))), (Z.leb_spec (Ztrunc ((a - l_amin l) / l_incr l)) 2147483647); cbn; lia || reflexivity. }
  rewrite E. cbn [or_ub obind].
  destruct (Z.eqb_spec (Ztrunc ((a - l_amin l) / l_incr l)) 2147483647); [lia|reflexivity].
Qed.
(** the raw index separates the beams at most at angle a from those above, unless a is less than one increment below the first beam *)
Lemma raw_spec : forall (amin incr a : R) (k : nat), 0 < incr -> ~ (amin - incr < a < amin) ->
  ((Ztrunc ((a - amin) / incr) + 1 <= Z.of_nat k)%Z <-> a < amin + INR k * incr).
Proof.
  intros amin incr a k P G. set (x := (a - amin) / incr). assert (E : a = amin + x * incr) by (unfold x; field; lra).
  rewrite trunc_up.
  - rewrite E. split; intros H.
    + apply Rplus_lt_compat_l. apply Rmult_lt_compat_r; auto.
    + apply Rmult_lt_reg_r with incr; lra.
  - destruct (Rle_or_lt 0 x); auto. right. destruct (Rle_or_lt x (-1)); auto. exfalso. apply G. rewrite E. split.
    + assert (-1 * incr < x * incr) by (apply Rmult_lt_compat_r; auto). lra.
    + assert (x * incr < 0 * incr) by (apply Rmult_lt_compat_r; auto). lra.
Qed.
(* the raw index is at most 2 above the exact quotient and above it *)
Lemma raw_close : forall x, x <= IZR (Ztrunc x + 1) <= x + 2.
Proof.
  intros x. rewrite plus_IZR. destruct (Rle_or_lt 0 x).
  - rewrite Ztrunc_floor by auto. pose proof (Zfloor_lb x). pose proof (Zfloor_ub x). lra.
  - rewrite Ztrunc_ceil by lra. pose proof (Zceil_ub x). pose proof (Zceil_lb x). lra.
Qed.

(** ** writing one range *)
Lemma set_nth_some : forall {A} (l : list A) i x, (i < length l)%nat -> exists l', set_nth l i x = Some l' /\ length l' = length l /\ nth_error l' i = Some x /\ forall j, j <> i -> nth_error l' j = nth_error l j.
Proof.
  induction l as [|a l IH]; intros i x H; [cbn in H; lia|]. destruct i as [|i].
  - exists (x :: l). repeat split; auto. intros [|j] D; [lia|reflexivity].
  - destruct (IH i x) as [l' [E [L [N O]]]]; [cbn in H; lia|]. exists (a :: l'). cbn. rewrite E. repeat split; cbn; auto. intros [|j] D; [reflexivity|]. cbn. apply O. lia.
Qed.
Lemma set_nth_none : forall {A} (l : list A) i x, (length l <= i)%nat -> set_nth l i x = None.
Proof. induction l as [|a l IH]; intros i x H; [destruct i; reflexivity|]. destruct i; cbn in *; [lia|]. rewrite IH by lia. reflexivity. Qed.
