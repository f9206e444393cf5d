(** Ray-box test in doubles and floats as an exact test on a slightly displaced box *)
From Coq Require Import ZArith Reals Lra Lia Bool.
From Flocq Require Import Core BinarySingleNaN Relative.
From Verif Require Import Num NumOrd MathTypes Mesh Box Spec P_Tac P_Math P_Box SpecRound P_Round P_OctF P_OctF2 P_F32.
Local Open Scope R_scope.
Notation fin := is_finite.

Definition tau (b o u : F64) : F64 := nf32 (nmul (nsub b o) (inv1 u)).
Definition e23 : R := / 8388608.
Definition w148 : R := bpow radix2 (-148).

Lemma c127 : 10 ^ 33 <= bpow radix2 127.
Proof.
  apply Rle_trans with (bpow radix2 110); [|apply bpow_le; lia]. rewrite bpow_powerRZ. change (powerRZ (IZR radix2) 110) with (2 ^ 110). lra.
Qed.
Lemma c24 : bpow radix2 (-24) = / 16777216.
Proof. reflexivity. Qed.
Lemma w150 : 4 * bpow radix2 (-150) = w148.
Proof. unfold w148. change 4 with (bpow radix2 2). rewrite <- bpow_plus. reflexivity. Qed.
Lemma eta_w : eta <= bpow radix2 (-200).
Proof. unfold eta. apply bpow_le. lia. Qed.
Lemma w200 : 1000 * bpow radix2 (-200) <= bpow radix2 (-150).
Proof.
  apply Rle_trans with (bpow radix2 10 * bpow radix2 (-200)).
  - apply Rmult_le_compat_r; [apply bpow_ge_0|]. change (bpow radix2 10) with 1024. lra.
  - rewrite <- bpow_plus. apply bpow_le. lia.
Qed.

Lemma lit_R : fin (nlit 1 1000000000 : F64) = true /\ B2R (nlit 1 1000000000 : F64) = rnd (1 / 10 ^ 9).
Proof.
  destruct (ofZ_R 1 ltac:(lia)) as [A B]. destruct (ofZ_R 1000000000 ltac:(lia)) as [C D].
  unfold nlit. destruct (div_R (nofZ 1) (nofZ 1000000000) A) as [E F].
  - rewrite D. lra.
  - rewrite B, D. pose proof big_ge. rewrite Rabs_right; lra.
  - rewrite B, D in F. split; auto. rewrite F. f_equal. lra.
Qed.

Lemma abs_R : forall x : F64, fin x = true -> fin (nabs x) = true /\ B2R (nabs x) = Rabs (B2R x).
Proof. intros x F. cbn [nabs NumF]. rewrite is_finite_Babs, B2R_Babs. auto. Qed.

Lemma inv1_F : forall u : F64, fin u = true -> 1 / 10 ^ 9 <= Rabs (B2R u) <= 2 -> 
  fin (inv1 u) = true /\ Rabs (B2R (inv1 u) * B2R u - 1) <= 2 * uro /\ Rabs (B2R (inv1 u)) <= 2 * 10 ^ 9 /\ 0 < B2R (inv1 u) * B2R u /\ B2R (inv1 u) = rnd (1 / B2R u).
Proof.
  intros u F [L H]. unfold inv1. destruct lit_R as [FL EL]. destruct (abs_R u F) as [FA EA].
  rewrite (ltb_R _ _ FA FL), EA, EL.
  assert (NL : Rltb (Rabs (B2R u)) (rnd (1 / 10 ^ 9)) = false).
  { apply Rltb_false. apply rnd_le_gen; auto. rewrite <- EA. apply gen_B2R. }
  rewrite NL. destruct (ofZ_R 1 ltac:(lia)) as [A B].
  assert (NZ : B2R u <> 0) by (intro E; rewrite E, Rabs_R0 in L; lra).
  assert (AP : 0 < Rabs (B2R u)) by (apply Rabs_pos_lt; auto).
  assert (I : Rabs (1 / B2R u) = 1 / Rabs (B2R u)) by (unfold Rdiv; rewrite Rabs_mult, Rabs_R1, Rabs_inv; auto).
  assert (IL : 1 / 2 <= 1 / Rabs (B2R u)).
  { unfold Rdiv. rewrite !Rmult_1_l. apply Rinv_le_contravar; lra. }
  assert (IH : 1 / Rabs (B2R u) <= 10 ^ 9).
  { apply Rmult_le_reg_r with (Rabs (B2R u)); [lra|]. unfold Rdiv. rewrite Rmult_1_l, Rinv_l by lra. lra. }
  destruct (div_R (nofZ 1) u A NZ) as [D E].
  { rewrite B, I. pose proof big_ge. lra. }
  rewrite B in E. unfold n1. split; [exact D|]. rewrite E.
  pose proof (rnd_err (1 / B2R u)) as X. rewrite I in X.
  assert (EU : eta <= uro * (1 / Rabs (B2R u))).
  { apply Rle_trans with (uro * (1/2)); [|apply uro_le; lra]. unfold uro. eapply Rle_trans; [apply eta_w|].
    apply Rle_trans with (bpow radix2 (-60)); [apply bpow_le; lia|]. change (bpow radix2 (-60)) with (/ 1152921504606846976). lra. }
  assert (Y : Rabs (rnd (1 / B2R u) * B2R u - 1) <= 2 * uro).
  { replace (rnd (1 / B2R u) * B2R u - 1) with ((rnd (1 / B2R u) - 1 / B2R u) * B2R u) by (field; auto). rewrite Rabs_mult.
    apply Rle_trans with (2 * (uro * (1 / Rabs (B2R u))) * Rabs (B2R u)); [apply Rmult_le_compat_r; lra|]. right. field. lra. }
  split; [exact Y|]. split; [|split; auto].
  - apply Rle_trans with (Rabs (1 / B2R u) + Rabs (rnd (1 / B2R u) - 1 / B2R u)).
    + eapply Rle_trans; [|apply Rabs_triang]. right. f_equal. ring.
    + rewrite I. unfold uro in *. lra.
  - apply Rabs_le_inv in Y. unfold uro in Y. lra.
Qed.

(** one slab parameter: finite, monotone in the bound, and the exact one for a slightly displaced bound *)
Lemma tau_F : forall b o u : F64, fin b = true -> fin o = true -> fin u = true -> Rabs (B2R b) <= 10 ^ 20 -> Rabs (B2R o) <= 10 ^ 20 ->
  1 / 10 ^ 9 <= Rabs (B2R u) <= 2 ->
  fin (tau b o u) = true /\ B2R (tau b o u) = rnd32 (rnd (rnd (B2R b - B2R o) * B2R (inv1 u))) /\
  Rabs (B2R (tau b o u) * B2R u - (B2R b - B2R o)) <= e23 * Rabs (B2R b - B2R o) + w148.
Proof.
  intros b o u FB FO FU BB BO HU. destruct (inv1_F u FU HU) as [FI [EI [BI [PI _]]]].
  pose proof big_ge as BG. pose proof c127 as C127.
  set (D := B2R b - B2R o). assert (DB : Rabs D <= 2 * 10 ^ 20).
  { unfold D. apply Rabs_le. apply Rabs_le_inv in BB, BO. lra. }
  destruct (sub_R b o FB FO) as [FS ES]; [fold D; lra|]. fold D in ES.
  assert (SE : Rabs (rnd D - D) <= uro * Rabs D).
  { destruct (opp_R o FO) as [_ OO]. pose proof (rnd_plus (B2R b) (B2R (nopp o)) (gen_B2R _) (gen_B2R _)) as X. rewrite OO in X. exact X. }
  set (s := rnd D) in *. set (v := B2R (inv1 u)) in *. set (y := B2R u) in *.
  assert (SB : Rabs s <= Rabs D + uro * Rabs D).
  { replace s with (D + (s - D)) by ring. eapply Rle_trans; [apply Rabs_triang|]. lra. }
  assert (PB : Rabs (s * v) <= 10 ^ 30).
  { rewrite Rabs_mult. apply Rle_trans with ((4 * 10 ^ 20) * (2 * 10 ^ 9)); [|lra].
    apply Rmult_le_compat; try apply Rabs_pos; auto. unfold uro in SB. lra. }
  destruct (mul_R (nsub b o) (inv1 u) FS FI) as [FM EM]; [rewrite ES; fold v; lra|]. rewrite ES in EM. fold v in EM.
  pose proof (rnd_err (s * v)) as PE. set (p := rnd (s * v)) in *.
  assert (PP : Rabs p <= 10 ^ 33).
  { replace p with (s * v + (p - s * v)) by ring. eapply Rle_trans; [apply Rabs_triang|]. pose proof eta_w. 
    assert (bpow radix2 (-200) <= 1) by (change 1 with (bpow radix2 0); apply bpow_le; lia). unfold uro in PE. lra. }
  destruct (nf32_spec (nmul (nsub b o) (inv1 u)) FM) as [FT ET].
  { rewrite EM. apply Rle_lt_trans with (bpow radix2 127); [apply rnd32_small; try lia; lra|apply bpow_lt; lia]. }
  destruct (nf32_error (nmul (nsub b o) (inv1 u)) FM) as [_ TE]; [rewrite EM; lra|]. rewrite EM in ET, TE.
  fold (tau b o u) in FT, ET, TE. split; [exact FT|]. split; [exact ET|]. clear ET.
  set (t := B2R (tau b o u)) in *. rewrite c24 in TE.
  (* multiply by the direction *)
  set (sy := s * v * y). assert (SY : Rabs (sy - s) <= 2 * uro * Rabs s).
  { unfold sy. replace (s * v * y - s) with (s * (v * y - 1)) by ring. rewrite Rabs_mult, Rmult_comm. apply Rmult_le_compat_r; [apply Rabs_pos|auto]. }
  assert (SYB : Rabs sy <= Rabs s + 2 * uro * Rabs s).
  { replace sy with (s + (sy - s)) by ring. eapply Rle_trans; [apply Rabs_triang|]. lra. }
  assert (AY : 0 <= Rabs y) by apply Rabs_pos. destruct HU as [_ HU].
  assert (PY : Rabs (p * y - sy) <= uro * Rabs sy + 2 * eta).
  { unfold sy. replace (p * y - s * v * y) with ((p - s * v) * y) by ring. rewrite (Rabs_mult (p - s * v)), (Rabs_mult (s * v)).
    apply Rle_trans with ((uro * Rabs (s * v) + eta) * Rabs y); [apply Rmult_le_compat_r; auto|].
    assert (eta * Rabs y <= 2 * eta) by (rewrite (Rmult_comm 2); apply Rmult_le_compat_l; [pose proof eta_pos; lra|auto]). lra. }
  assert (PYB : Rabs (p * y) <= Rabs sy + Rabs (p * y - sy)).
  { replace (p * y) with (sy + (p * y - sy)) at 1 by ring. apply Rabs_triang. }
  assert (TY : Rabs (t * y - p * y) <= / 16777216 * Rabs (p * y) + 2 * bpow radix2 (-150)).
  { replace (t * y - p * y) with ((t - p) * y) by ring. rewrite (Rabs_mult (t - p)), (Rabs_mult p).
    apply Rle_trans with ((Rabs p * / 16777216 + bpow radix2 (-150)) * Rabs y); [apply Rmult_le_compat_r; auto|].
    assert (bpow radix2 (-150) * Rabs y <= 2 * bpow radix2 (-150)) by (rewrite (Rmult_comm 2); apply Rmult_le_compat_l; [apply bpow_ge_0|auto]). lra. }
  assert (TD : Rabs (t * y - D) <= Rabs (t * y - p * y) + Rabs (p * y - sy) + Rabs (sy - s) + Rabs (s - D)).
  { replace (t * y - D) with ((t * y - p * y) + ((p * y - sy) + ((sy - s) + (s - D)))) by ring.
    eapply Rle_trans; [apply Rabs_triang|]. pose proof (Rabs_triang (p * y - sy) ((sy - s) + (s - D))). pose proof (Rabs_triang (sy - s) (s - D)). lra. }
  rewrite <- w150. pose proof eta_w. pose proof w200. pose proof eta_pos. pose proof (Rabs_pos D). pose proof (Rabs_pos s). pose proof (Rabs_pos sy).
  unfold uro, e23 in *. lra.
Qed.

Lemma rnd32_le : forall x y, x <= y -> rnd32 x <= rnd32 y.
Proof. intros x y H. pose proof prec32_gt0. unfold rnd32. apply round_le; auto with typeclass_instances. Qed.

Lemma tau_mono : forall a b o u : F64, fin a = true -> fin b = true -> fin o = true -> fin u = true ->
  Rabs (B2R a) <= 10 ^ 20 -> Rabs (B2R b) <= 10 ^ 20 -> Rabs (B2R o) <= 10 ^ 20 -> 1 / 10 ^ 9 <= Rabs (B2R u) <= 2 -> B2R a <= B2R b ->
  (0 < B2R u -> B2R (tau a o u) <= B2R (tau b o u)) /\ (B2R u < 0 -> B2R (tau b o u) <= B2R (tau a o u)).
Proof.
  intros a b o u FA FB FO FU BA BB BO HU L. destruct (tau_F a o u) as [_ [EA _]]; auto. destruct (tau_F b o u) as [_ [EB _]]; auto. rewrite EA, EB.
  destruct (inv1_F u FU HU) as [_ [_ [_ [P _]]]]. assert (M : rnd (B2R a - B2R o) <= rnd (B2R b - B2R o)) by (apply rnd_le; lra).
  split; intro S; apply rnd32_le, rnd_le.
  - apply Rmult_le_compat_r; auto. destruct (Rle_dec 0 (B2R (inv1 u))); auto. nra.
  - apply Rmult_le_compat_neg_l with (r := B2R (inv1 u)) in M; [lra|]. destruct (Rle_dec (B2R (inv1 u)) 0); auto. nra.
Qed.

(** the displaced interval of one axis *)
Lemma axis_F : forall mn mx o u : F64, fin mn = true -> fin mx = true -> fin o = true -> fin u = true ->
  Rabs (B2R mn) <= 10 ^ 20 -> Rabs (B2R mx) <= 10 ^ 20 -> Rabs (B2R o) <= 10 ^ 20 -> 1 / 10 ^ 9 <= Rabs (B2R u) <= 2 -> B2R mn <= B2R mx ->
  let near := tau (if nltb u n0 then mx else mn) o u in let far := tau (if negb (nltb u n0) then mx else mn) o u in
  fin near = true /\ fin far = true /\ B2R near <= B2R far /\
  exists lo hi, lo <= hi /\ Rabs (lo - B2R mn) <= e23 * Rabs (B2R mn - B2R o) + w148 /\ Rabs (hi - B2R mx) <= e23 * Rabs (B2R mx - B2R o) + w148 /\
    forall t, lo <= B2R o + t * B2R u <= hi <-> B2R near <= t <= B2R far.
Proof.
  intros mn mx o u FN FX FO FU BN BX BO HU L. destruct (tau_F mn o u) as [TN [_ EN]]; auto. destruct (tau_F mx o u) as [TX [_ EX]]; auto.
  destruct (tau_mono mn mx o u) as [MP MM]; auto. destruct (ofZ_R 0 ltac:(lia)) as [FZ EZ].
  assert (LE : nltb u n0 = Rltb (B2R u) 0) by (rewrite <- EZ; apply ltb_R; auto). cbv zeta. rewrite LE.
  assert (NZ : B2R u <> 0) by (intro E; rewrite E, Rabs_R0 in HU; lra).
  set (lo := B2R o + B2R (tau mn o u) * B2R u). set (hi := B2R o + B2R (tau mx o u) * B2R u).
  assert (CL : Rabs (lo - B2R mn) <= e23 * Rabs (B2R mn - B2R o) + w148).
  { unfold lo. replace (B2R o + B2R (tau mn o u) * B2R u - B2R mn) with (B2R (tau mn o u) * B2R u - (B2R mn - B2R o)) by ring. auto. }
  assert (CH : Rabs (hi - B2R mx) <= e23 * Rabs (B2R mx - B2R o) + w148).
  { unfold hi. replace (B2R o + B2R (tau mx o u) * B2R u - B2R mx) with (B2R (tau mx o u) * B2R u - (B2R mx - B2R o)) by ring. auto. }
  destruct (Rltb (B2R u) 0) eqn:S; rboolH; cbn [negb].
  - specialize (MM S). repeat (split; [auto; fail|]). exists lo, hi. split; [unfold lo, hi; nra|]. split; auto. split; auto.
    intro t. unfold lo, hi. split; intros [A B]; split.
    + apply Rmult_le_reg_r with (- B2R u); lra.
    + apply Rmult_le_reg_r with (- B2R u); lra.
    + nra.
    + nra.
  - assert (P : 0 < B2R u) by lra. specialize (MP P). repeat (split; [auto; fail|]). exists lo, hi. split; [unfold lo, hi; nra|]. split; auto. split; auto.
    intro t. unfold lo, hi. split; intros [A B]; split.
    + apply Rmult_le_reg_r with (B2R u); lra.
    + apply Rmult_le_reg_r with (B2R u); lra.
    + nra.
    + nra.
Qed.

(** box_ray on finite slab parameters *)
Lemma slabs_F : forall (a0 z0 a1 z1 a2 z2 t0 t1 d0 : F64), fin a0 = true -> fin z0 = true -> fin a1 = true -> fin z1 = true -> fin a2 = true -> fin z2 = true ->
  fin t0 = true -> fin t1 = true -> B2R a0 <= B2R z0 -> B2R a1 <= B2R z1 -> B2R a2 <= B2R z2 ->
  let res := (if nltb z1 a0 || nltb z0 a1 then (false, d0)
    else if nltb z2 (nmax a1 a0) || nltb (nmin z1 z0) a2 then (false, d0)
    else (nltb t0 (nmin z2 (nmin z1 z0)) && nltb (nmax a2 (nmax a1 a0)) t1, nmax a2 (nmax a1 a0)))%bool in
  let lo := Rmax (B2R a2) (Rmax (B2R a1) (B2R a0)) in let hi := Rmin (B2R z2) (Rmin (B2R z1) (B2R z0)) in
  (lo <= hi /\ fst res = (Rltb (B2R t0) hi && Rltb lo (B2R t1))%bool /\ fin (snd res) = true /\ B2R (snd res) = lo) \/ (hi < lo /\ res = (false, d0)).
Proof.
  intros a0 z0 a1 z1 a2 z2 t0 t1 d0 A0 Z0 A1 Z1 A2 Z2 T0 T1 L0 L1 L2.
  destruct (max_R a1 a0 A1 A0) as [M1 M1E]. destruct (min_R z1 z0 Z1 Z0) as [N1 N1E].
  destruct (max_R a2 (nmax a1 a0) A2 M1) as [M2 M2E]. destruct (min_R z2 (nmin z1 z0) Z2 N1) as [N2 N2E].
  rewrite !ltb_R by auto. rewrite M2E, N2E, M1E, N1E. cbv zeta.
  destruct (Rltb (B2R z1) (B2R a0)) eqn:E1; rboolH; cbn [orb].
  { right. split; auto. unfold Rmax, Rmin. repeat destruct Rle_dec; lra. }
  destruct (Rltb (B2R z0) (B2R a1)) eqn:E2; rboolH; cbn [orb].
  { right. split; auto. unfold Rmax, Rmin. repeat destruct Rle_dec; lra. }
  destruct (Rltb (B2R z2) (Rmax (B2R a1) (B2R a0))) eqn:E3; rboolH; cbn [orb].
  { right. split; auto. unfold Rmax, Rmin in *. repeat destruct Rle_dec; lra. }
  destruct (Rltb (Rmin (B2R z1) (B2R z0)) (B2R a2)) eqn:E4; rboolH; cbn [orb].
  { right. split; auto. unfold Rmax, Rmin in *. repeat destruct Rle_dec; lra. }
  left. cbn [fst snd]. split; [|split; auto; split; auto; rewrite M2E, M1E; auto]. unfold Rmax, Rmin in *. repeat destruct Rle_dec; lra.
Qed.
