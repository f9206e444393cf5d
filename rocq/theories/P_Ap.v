(** * Forward error analysis with a scale: values of size B * M^k known up to e * u * M^k *)
From Coq Require Import ZArith Reals Lra Lia Bool.
From Flocq Require Import Core BinarySingleNaN.
From Verif Require Import Num NumOrd MathTypes Mesh Spec SpecRound P_Tac P_Math P_Round P_Round3 P_OctF P_RayF.
Local Open Scope R_scope.
Local Notation fin := (is_finite (prec := 53) (emax := 1024)).

Lemma bp0 : bpow radix2 0 = 1. Proof. reflexivity. Qed.
Lemma pow_bpow : forall e k, bpow radix2 e ^ k = bpow radix2 (e * Z.of_nat k).
Proof. intros e k. induction k as [|k IH]; [rewrite Z.mul_0_r; reflexivity|]. cbn [pow]. rewrite IH, <- bpow_plus. f_equal. lia. Qed.

Section Ap.
  Context (M : R) (ML : bpow radix2 (-100) <= M) (MU : M <= bpow radix2 100).
  Lemma Mpos : 0 < M.
  Proof. pose proof (bpow_gt_0 radix2 (-100)). lra. Qed.
  Lemma Mk_lo : forall k, (k <= 8)%nat -> bpow radix2 (-800) <= M ^ k.
  Proof.
    intros k K. apply Rle_trans with (bpow radix2 (-100) ^ k); [rewrite pow_bpow; apply bpow_le; lia|].
    apply pow_incr. split; [apply bpow_ge_0|exact ML].
  Qed.
  Lemma Mk_up : forall k, (k <= 8)%nat -> M ^ k <= bpow radix2 800.
  Proof.
    intros k K. apply Rle_trans with (bpow radix2 100 ^ k); [|rewrite pow_bpow; apply bpow_le; lia].
    apply pow_incr. split; [left; apply Mpos|exact MU].
  Qed.
  Lemma Mk_pos : forall k, 0 < M ^ k.
  Proof. intro k. apply pow_lt, Mpos. Qed.
  Lemma eta_Mk : forall k, (k <= 8)%nat -> eta <= uro * M ^ k / 1000.
  Proof.
    intros k K. pose proof (Mk_lo k K) as L. assert (E : eta <= bpow radix2 (-800) * bpow radix2 (-63)).
    { unfold eta. rewrite <- bpow_plus. apply bpow_le. lia. }
    assert (U : bpow radix2 (-63) <= uro / 1000) by (unfold uro; cbn; lra).
    pose proof (bpow_gt_0 radix2 (-800)). pose proof (bpow_gt_0 radix2 (-63)).
    apply Rle_trans with (M ^ k * (uro / 1000)); [|lra]. eapply Rle_trans; [exact E|]. apply Rmult_le_compat; lra.
  Qed.
  Lemma Mk_big : forall k B, (k <= 8)%nat -> B <= 1099511627776 -> B * M ^ k <= big.
  Proof.
    intros k B K H. pose proof (Mk_up k K) as L. pose proof (Mk_pos k) as P.
    apply Rle_trans with (bpow radix2 40 * bpow radix2 800); [|rewrite <- bpow_plus; apply bpow_le; lia].
    apply Rle_trans with (bpow radix2 40 * M ^ k); [apply Rmult_le_compat_r; [lra|cbn; lra]|apply Rmult_le_compat_l; [apply bpow_ge_0|lra]].
  Qed.

  Definition ap (k : nat) (B e : R) (x : F64) (X : R) : Prop :=
    fin x = true /\ Rabs X <= B * M ^ k /\ Rabs (B2R x - X) <= e * uro * M ^ k.
  Definition apv (k : nat) (B e : R) (v : vec3 F64) (V : vec3 R) : Prop :=
    ap k B e (vx v) (vx V) /\ ap k B e (vy v) (vy V) /\ ap k B e (vz v) (vz V).

  Lemma ap_exact : forall x, fin x = true -> Rabs (B2R x) <= M -> ap 1 1 0 x (B2R x).
  Proof. intros x F H. split; auto. split; [lra|]. replace (B2R x - B2R x) with 0 by ring. rewrite Rabs_R0. lra. Qed.
  Lemma apv_exact : forall v, s_finv v -> s_bound M (rv v) -> apv 1 1 0 v (rv v).
  Proof. intros v [A [B C]] [X [Y Z]]. split; [|split]; apply ap_exact; auto. Qed.
  Lemma ap_weaken : forall k B e B' e' x X, ap k B e x X -> B <= B' -> e <= e' -> ap k B' e' x X.
  Proof.
    intros k B e B' e' x X [F [H1 H2]] L1 L2. pose proof (Mk_pos k) as P. pose proof uro_pos as U. split; auto. split.
    - eapply Rle_trans; [exact H1|]. apply Rmult_le_compat_r; lra.
    - eapply Rle_trans; [exact H2|]. apply Rmult_le_compat_r; [lra|]. apply Rmult_le_compat_r; lra.
  Qed.
  (** the size of the computed value *)
  Lemma ap_size : forall k B e x X, ap k B e x X -> e <= 1048576 -> Rabs (B2R x) <= (B + 1 / 1000) * M ^ k.
  Proof.
    intros k B e x X [F [H1 H2]] E. pose proof (Mk_pos k) as P. eapply Rle_trans; [apply (Rabs_close _ _ _ _ H2 H1)|].
    assert (e * uro <= 1 / 1000) by (unfold uro; lra). nra.
  Qed.
  Lemma ap_opp : forall k B e x X, ap k B e x X -> ap k B e (nopp x) (- X).
  Proof.
    intros k B e x X [F [H1 H2]]. destruct (opp_R x F) as [F' E]. split; auto. rewrite E, Rabs_Ropp. split; auto.
    replace (- B2R x - - X) with (- (B2R x - X)) by ring. rewrite Rabs_Ropp. exact H2.
  Qed.
  Lemma ap_add : forall k B1 e1 x X B2 e2 y Y, ap k B1 e1 x X -> ap k B2 e2 y Y -> (k <= 8)%nat -> B1 + B2 <= 1048576 -> e1 + e2 <= 1048576 ->
    ap k (B1 + B2) (e1 + e2 + (B1 + B2) + 1) (nadd x y) (X + Y).
  Proof.
    intros k B1 e1 x X B2 e2 y Y [F1 [S1 E1]] [F2 [S2 E2]] K HB HE. pose proof (Mk_pos k) as P. pose proof uro_pos as U.
    pose proof (Rabs_plus_le _ _ _ _ S1 S2) as S. pose proof (Rabs_plus_le _ _ _ _ E1 E2) as E.
    replace (B2R x - X + (B2R y - Y)) with (B2R x + B2R y - (X + Y)) in E by ring.
    pose proof (Rabs_close _ _ _ _ E S) as SZ.
    assert (UE : (e1 + e2) * uro <= 1 / 1000) by (unfold uro; lra).
    assert (SZ' : Rabs (B2R x + B2R y) <= (B1 + B2 + 1 / 1000) * M ^ k) by nra.
    destruct (add_R x y F1 F2) as [F R]; [eapply Rle_trans; [exact SZ'|]; apply Mk_big; auto; lra|].
    split; auto. split; [lra|]. rewrite R.
    replace (rnd (B2R x + B2R y) - (X + Y)) with (rnd (B2R x + B2R y) - (B2R x + B2R y) + (B2R x + B2R y - (X + Y))) by ring.
    pose proof (rnd_plus (B2R x) (B2R y) (gen_B2R x) (gen_B2R y)) as RE. apply uro_le in SZ'.
    eapply Rle_trans; [apply Rabs_plus_le; [eapply Rle_trans; [exact RE|exact SZ']|exact E]|]. assert (0 < uro * M ^ k) by nra. nra.
  Qed.
  Lemma ap_sub : forall k B1 e1 x X B2 e2 y Y, ap k B1 e1 x X -> ap k B2 e2 y Y -> (k <= 8)%nat -> B1 + B2 <= 1048576 -> e1 + e2 <= 1048576 ->
    ap k (B1 + B2) (e1 + e2 + (B1 + B2) + 1) (nsub x y) (X - Y).
  Proof.
    intros k B1 e1 x X B2 e2 y Y [F1 [S1 E1]] [F2 [S2 E2]] K HB HE. pose proof (Mk_pos k) as P. pose proof uro_pos as U.
    rewrite <- Rabs_Ropp in S2, E2. pose proof (Rabs_plus_le _ _ _ _ S1 S2) as S. pose proof (Rabs_plus_le _ _ _ _ E1 E2) as E.
    replace (B2R x - X + - (B2R y - Y)) with (B2R x - B2R y - (X - Y)) in E by ring. change (X + - Y) with (X - Y) in S.
    pose proof (Rabs_close _ _ _ _ E S) as SZ.
    assert (UE : (e1 + e2) * uro <= 1 / 1000) by (unfold uro; lra).
    assert (SZ' : Rabs (B2R x - B2R y) <= (B1 + B2 + 1 / 1000) * M ^ k) by nra.
    destruct (sub_R x y F1 F2) as [F R]; [eapply Rle_trans; [exact SZ'|]; apply Mk_big; auto; lra|].
    split; auto. split; [lra|]. rewrite R.
    replace (rnd (B2R x - B2R y) - (X - Y)) with (rnd (B2R x - B2R y) - (B2R x - B2R y) + (B2R x - B2R y - (X - Y))) by ring.
    assert (RE : Rabs (rnd (B2R x - B2R y) - (B2R x - B2R y)) <= uro * Rabs (B2R x - B2R y)).
    { destruct (opp_R y F2) as [_ O]. pose proof (rnd_plus (B2R x) (B2R (nopp y)) (gen_B2R x) (gen_B2R _)) as RE. rewrite O in RE. exact RE. }
    apply uro_le in SZ'.
    eapply Rle_trans; [apply Rabs_plus_le; [eapply Rle_trans; [exact RE|exact SZ']|exact E]|]. assert (0 < uro * M ^ k) by nra. nra.
  Qed.
  Lemma ap_mul : forall k l B1 e1 x X B2 e2 y Y, ap k B1 e1 x X -> ap l B2 e2 y Y -> (k + l <= 8)%nat ->
    0 <= B1 -> 0 <= e1 -> 0 <= B2 -> 0 <= e2 -> B1 * B2 <= 1048576 -> e1 * B2 + e2 * B1 <= 1048576 -> e1 * e2 <= 1073741824 ->
    ap (k + l) (B1 * B2) (e1 * B2 + e2 * B1 + B1 * B2 + 1) (nmul x y) (X * Y).
  Proof.
    intros k l B1 e1 x X B2 e2 y Y [F1 [S1 E1]] [F2 [S2 E2]] K P1 P2 P3 P4 HB HE HEE. pose proof (Mk_pos k) as Pk. pose proof (Mk_pos l) as Pl. pose proof uro_pos as U.
    pose proof (Rabs_mult_le _ _ _ _ S1 S2) as S. replace (B1 * M ^ k * (B2 * M ^ l)) with (B1 * B2 * M ^ (k + l)) in S by (rewrite pow_add; ring).
    assert (E : Rabs (B2R x * B2R y - X * Y) <= (e1 * B2 + e2 * B1 + e1 * e2 * uro) * uro * M ^ (k + l)).
    { replace (B2R x * B2R y - X * Y) with ((B2R x - X) * Y + (X * (B2R y - Y) + (B2R x - X) * (B2R y - Y))) by ring.
      pose proof (Rabs_mult_le _ _ _ _ E1 S2) as A1. pose proof (Rabs_mult_le _ _ _ _ S1 E2) as A2. pose proof (Rabs_mult_le _ _ _ _ E1 E2) as A3.
      eapply Rle_trans; [apply Rabs_plus_le; [exact A1|apply Rabs_plus_le; [exact A2|exact A3]]|]. rewrite pow_add. apply Req_le. ring. }
    pose proof (Mk_pos (k + l)) as P. set (Q := M ^ (k + l)) in *.
    assert (EE : e1 * e2 * uro <= 1 / 1000) by (unfold uro; lra).
    set (d := e1 * B2 + e2 * B1 + e1 * e2 * uro) in *. assert (D : d <= 1048577) by (unfold d; lra).
    pose proof (Rabs_close _ _ _ _ E S) as SZ.
    assert (UE : d * uro <= 1 / 1000) by (unfold uro; lra).
    assert (SZ' : Rabs (B2R x * B2R y) <= (B1 * B2 + 1 / 1000) * Q) by nra.
    destruct (mul_R x y F1 F2) as [F R]; [eapply Rle_trans; [exact SZ'|]; apply Mk_big; auto; lra|].
    split; auto. split; [exact S|]. rewrite R.
    replace (rnd (B2R x * B2R y) - X * Y) with (rnd (B2R x * B2R y) - B2R x * B2R y + (B2R x * B2R y - X * Y)) by ring.
    pose proof (rnd_err (B2R x * B2R y)) as RE. apply uro_le in SZ'. pose proof (eta_Mk (k + l) K) as ET. fold Q in ET.
    eapply Rle_trans; [apply Rabs_plus_le; [eapply Rle_trans; [exact RE|apply Rplus_le_compat; [exact SZ'|exact ET]]|exact E]|].
    fold Q. assert (UQ : 0 < uro * Q) by nra. replace (d * uro * Q) with (d * (uro * Q)) by ring.
    replace (uro * ((B1 * B2 + 1 / 1000) * Q)) with ((B1 * B2 + 1 / 1000) * (uro * Q)) by ring.
    replace (uro * Q / 1000) with (1 / 1000 * (uro * Q)) by field.
    replace ((e1 * B2 + e2 * B1 + B1 * B2 + 1) * uro * Q) with ((e1 * B2 + e2 * B1 + B1 * B2 + 1) * (uro * Q)) by ring.
    rewrite <- !Rmult_plus_distr_r. apply Rmult_le_compat_r; [lra|]. unfold d. lra.
  Qed.

  (** ** vectors *)
  Lemma apv_sub : forall k B1 e1 v V B2 e2 w W, apv k B1 e1 v V -> apv k B2 e2 w W -> (k <= 8)%nat -> B1 + B2 <= 1048576 -> e1 + e2 <= 1048576 ->
    apv k (B1 + B2) (e1 + e2 + (B1 + B2) + 1) (vsub v w) (s_diff V W).
  Proof. intros k B1 e1 v V B2 e2 w W [X [Y Z]] [X' [Y' Z']] K HB HE. split; [|split]; apply ap_sub; auto. Qed.
  Lemma ap_cross1 : forall k l B1 e1 B2 e2 a A b B c C d D, ap k B1 e1 a A -> ap l B2 e2 b B -> ap k B1 e1 c C -> ap l B2 e2 d D -> (k + l <= 8)%nat ->
    0 <= B1 -> 0 <= e1 -> 0 <= B2 -> 0 <= e2 -> B1 * B2 <= 10000 -> e1 * B2 + e2 * B1 <= 10000 -> e1 * e2 <= 1073741824 ->
    ap (k + l) (2 * (B1 * B2)) (2 * (e1 * B2 + e2 * B1 + B1 * B2 + 1) + 2 * (B1 * B2) + 1) (nsub (nmul a b) (nmul c d)) (A * B - C * D).
  Proof.
    intros k l B1 e1 B2 e2 a A b B c C d D HA HB HC HD K P1 P2 P3 P4 H1 H2 H3.
    assert (X := ap_mul k l _ _ _ _ _ _ _ _ HA HB K P1 P2 P3 P4 ltac:(lra) ltac:(lra) H3).
    assert (Y := ap_mul k l _ _ _ _ _ _ _ _ HC HD K P1 P2 P3 P4 ltac:(lra) ltac:(lra) H3).
    eapply ap_weaken; [apply (ap_sub _ _ _ _ _ _ _ _ _ X Y K); lra|lra|lra].
  Qed.
  Lemma apv_cross : forall k l B1 e1 v V B2 e2 w W, apv k B1 e1 v V -> apv l B2 e2 w W -> (k + l <= 8)%nat ->
    0 <= B1 -> 0 <= e1 -> 0 <= B2 -> 0 <= e2 -> B1 * B2 <= 10000 -> e1 * B2 + e2 * B1 <= 10000 -> e1 * e2 <= 1073741824 ->
    apv (k + l) (2 * (B1 * B2)) (2 * (e1 * B2 + e2 * B1 + B1 * B2 + 1) + 2 * (B1 * B2) + 1) (vcross v w) (vcross V W).
  Proof. intros k l B1 e1 v V B2 e2 w W [X [Y Z]] [X' [Y' Z']] K P1 P2 P3 P4 H1 H2 H3. split; [|split]; cbn [vx vy vz vcross]; apply ap_cross1; auto. Qed.
  Lemma ap_dot : forall k l B1 e1 v V B2 e2 w W, apv k B1 e1 v V -> apv l B2 e2 w W -> (k + l <= 8)%nat ->
    0 <= B1 -> 0 <= e1 -> 0 <= B2 -> 0 <= e2 -> B1 * B2 <= 10000 -> e1 * B2 + e2 * B1 <= 10000 -> e1 * e2 <= 1073741824 ->
    ap (k + l) (3 * (B1 * B2)) (3 * (e1 * B2 + e2 * B1 + B1 * B2 + 1) + 5 * (B1 * B2) + 2) (vdot v w) (s_dot V W).
  Proof.
    intros k l B1 e1 v V B2 e2 w W [X [Y Z]] [X' [Y' Z']] K P1 P2 P3 P4 H1 H2 H3.
    assert (A := ap_mul k l _ _ _ _ _ _ _ _ X X' K P1 P2 P3 P4 ltac:(lra) ltac:(lra) H3).
    assert (B := ap_mul k l _ _ _ _ _ _ _ _ Y Y' K P1 P2 P3 P4 ltac:(lra) ltac:(lra) H3).
    assert (C := ap_mul k l _ _ _ _ _ _ _ _ Z Z' K P1 P2 P3 P4 ltac:(lra) ltac:(lra) H3).
    assert (AB := ap_add _ _ _ _ _ _ _ _ _ A B K ltac:(lra) ltac:(lra)).
    eapply ap_weaken; [apply (ap_add _ _ _ _ _ _ _ _ _ AB C K); lra|lra|lra].
  Qed.
End Ap.
