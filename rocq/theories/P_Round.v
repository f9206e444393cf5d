(** * Rounding errors of binary64 operations *)
From Coq Require Import ZArith Bool Lia Reals Lra Psatz.
From Flocq Require Import Core Relative BinarySingleNaN Plus_error.
From Verif Require Import Num MathTypes SpecRound.
Local Open Scope R_scope.

Definition rnd (x : R) : R := round radix2 (SpecFloat.fexp 53 1024) ZnearestE x.
Lemma fexp_FLT : forall e, SpecFloat.fexp 53 1024 e = FLT_exp (-1074) 53 e.
Proof. reflexivity. Qed.
Lemma uro_bpow : / 2 * bpow radix2 (- (53) + 1) = uro.
Proof. unfold uro. cbn. field. Qed.
Lemma eta_bpow : / 2 * bpow radix2 (-1074) = eta.
Proof. unfold eta. change (-1075)%Z with (-1074 + -1)%Z. rewrite bpow_plus. change (bpow radix2 (-1)) with (/ 2). ring. Qed.
Lemma eta_pos : 0 < eta.
Proof. apply bpow_gt_0. Qed.
Lemma big_pos : 0 < big.
Proof. apply bpow_gt_0. Qed.

Lemma rnd_err : forall x, Rabs (rnd x - x) <= uro * Rabs x + eta.
Proof.
  intros x. destruct (error_N_FLT radix2 (-1074) 53 prec64_gt0 (fun t => negb (Z.even t)) x) as [eps [et [E1 [E2 [_ E]]]]].
  unfold rnd. change (SpecFloat.fexp 53 1024) with (FLT_exp (-1074) 53). rewrite E.
  replace (x * (1 + eps) + et - x) with (x * eps + et) by ring. eapply Rle_trans; [apply Rabs_triang|].
  rewrite Rabs_mult, Rmult_comm. rewrite uro_bpow in E1. rewrite eta_bpow in E2. apply Rplus_le_compat; auto.
  apply Rmult_le_compat_r; auto. apply Rabs_pos.
Qed.
Definition gen (x : R) : Prop := generic_format radix2 (SpecFloat.fexp 53 1024) x.
Lemma gen_B2R : forall x : F64, gen (B2R x).
Proof. intros x. apply generic_format_B2R. Qed.
Lemma rnd_gen : forall x, gen x -> rnd x = x.
Proof. intros x G. unfold rnd. apply round_generic; auto. apply valid_rnd_N. Qed.
Lemma rnd_plus : forall x y, gen x -> gen y -> Rabs (rnd (x + y) - (x + y)) <= uro * Rabs (x + y).
Proof.
  intros x y X Y. destruct (Rle_lt_dec (Rabs (x + y)) (bpow radix2 (53 + -1074))) as [L|L].
  - rewrite rnd_gen.
    + replace (x + y - (x + y)) with 0 by ring. rewrite Rabs_R0. apply Rmult_le_pos; [unfold uro; lra|apply Rabs_pos].
    + unfold gen in *. change (SpecFloat.fexp 53 1024) with (FLT_exp (-1074) 53) in *. apply FLT_format_plus_small; auto. exact prec64_gt0.
  - pose proof (relative_error_N_FLT radix2 (-1074) 53 prec64_gt0 (fun t => negb (Z.even t)) (x + y)) as E. rewrite uro_bpow in E.
    apply E. apply Rle_trans with (bpow radix2 (53 + -1074)); [apply bpow_le; lia|]. left. auto.
Qed.
Lemma big_gen : gen big.
Proof. unfold gen, big. apply generic_format_bpow. unfold SpecFloat.fexp, SpecFloat.emin. lia. Qed.
Lemma rnd_big : forall x, Rabs x <= big -> Rabs (rnd x) <= big.
Proof.
  intros x H. unfold rnd. apply abs_round_le_generic; auto; [|apply valid_rnd_N|apply big_gen].
  apply (fexp_correct 53 1024). exact prec64_gt0.
Qed.
Lemma big_lt : forall x, Rabs x <= big -> Rlt_bool (Rabs (rnd x)) (bpow radix2 1024) = true.
Proof. intros x H. apply Rlt_bool_true. eapply Rle_lt_trans; [apply rnd_big; auto|]. apply bpow_lt. lia. Qed.

(** the operations, when the exact result is at most 2^1023 *)
Local Notation fin := (is_finite (prec := 53) (emax := 1024)).
Lemma add_R : forall x y : F64, fin x = true -> fin y = true -> Rabs (B2R x + B2R y) <= big ->
  fin (nadd x y) = true /\ B2R (nadd x y) = rnd (B2R x + B2R y).
Proof.
  intros x y X Y B. pose proof (Bplus_correct 53 1024 prec64_gt0 emax64_gt mode_NE x y X Y) as C.
  fold (rnd (B2R x + B2R y)) in C. cbn [round_mode] in C. change (Rlt_bool _ _) with (Rlt_bool (Rabs (rnd (B2R x + B2R y))) (bpow radix2 1024)) in C.
  rewrite (big_lt _ B) in C. destruct C as [C1 [C2 _]]. split; [exact C2|exact C1].
Qed.
Lemma sub_R : forall x y : F64, fin x = true -> fin y = true -> Rabs (B2R x - B2R y) <= big ->
  fin (nsub x y) = true /\ B2R (nsub x y) = rnd (B2R x - B2R y).
Proof.
  intros x y X Y B. pose proof (Bminus_correct 53 1024 prec64_gt0 emax64_gt mode_NE x y X Y) as C.
  change (Rlt_bool _ _) with (Rlt_bool (Rabs (rnd (B2R x - B2R y))) (bpow radix2 1024)) in C.
  rewrite (big_lt _ B) in C. destruct C as [C1 [C2 _]]. split; [exact C2|exact C1].
Qed.
Lemma mul_R : forall x y : F64, fin x = true -> fin y = true -> Rabs (B2R x * B2R y) <= big ->
  fin (nmul x y) = true /\ B2R (nmul x y) = rnd (B2R x * B2R y).
Proof.
  intros x y X Y B. pose proof (Bmult_correct 53 1024 prec64_gt0 emax64_gt mode_NE x y) as C.
  change (Rlt_bool _ _) with (Rlt_bool (Rabs (rnd (B2R x * B2R y))) (bpow radix2 1024)) in C.
  rewrite (big_lt _ B) in C. destruct C as [C1 [C2 _]]. rewrite X, Y in C2. split; [exact C2|exact C1].
Qed.
Lemma div_R : forall x y : F64, fin x = true -> B2R y <> 0 -> Rabs (B2R x / B2R y) <= big ->
  fin (ndiv x y) = true /\ B2R (ndiv x y) = rnd (B2R x / B2R y).
Proof.
  intros x y X Y B. pose proof (Bdiv_correct 53 1024 prec64_gt0 emax64_gt mode_NE x y Y) as C.
  change (Rlt_bool _ _) with (Rlt_bool (Rabs (rnd (B2R x / B2R y))) (bpow radix2 1024)) in C.
  rewrite (big_lt _ B) in C. destruct C as [C1 [C2 _]]. rewrite X in C2. split; [exact C2|exact C1].
Qed.
Lemma sqrt_R : forall x : F64, fin x = true -> 0 <= B2R x -> fin (nsqrt x) = true /\ B2R (nsqrt x) = rnd (sqrt (B2R x)).
Proof.
  intros x X P. destruct (Bsqrt_correct 53 1024 prec64_gt0 emax64_gt mode_NE x) as [C1 [C2 _]]. split; [|exact C1].
  cbn [nsqrt NumF]. rewrite C2. destruct x as [s|s| |s m e H]; try discriminate X; auto. destruct s; auto. exfalso.
  cbn in P. apply (Rle_not_lt _ _ P). unfold F2R. cbn. apply Ropp_lt_cancel. rewrite Ropp_0, <- Ropp_mult_distr_l_reverse.
  apply Rmult_lt_0_compat; [|apply bpow_gt_0]. rewrite <- opp_IZR. apply IZR_lt. lia.
Qed.
Lemma opp_R : forall x : F64, fin x = true -> fin (nopp x) = true /\ B2R (nopp x) = - B2R x.
Proof. intros x X. cbn [nopp NumF]. rewrite is_finite_Bopp, B2R_Bopp. auto. Qed.
Lemma ofZ_R : forall z, (Z.abs z < 2 ^ 53)%Z -> fin (nofZ z) = true /\ B2R (nofZ z : F64) = IZR z.
Proof.
  intros z L. cbn [nofZ NumF]. unfold f64_of_Z. pose proof (binary_normalize_correct 53 1024 prec64_gt0 emax64_gt mode_NE z 0 false) as C. cbv zeta in C.
  assert (F : F2R (Float radix2 z 0) = IZR z) by (unfold F2R; cbn; ring). rewrite F in C.
  assert (G : gen (IZR z)).
  { rewrite <- F. apply generic_format_F2R. intros NZ. unfold cexp. rewrite F. unfold SpecFloat.fexp, SpecFloat.emin. cbn [Fexp].
    assert (mag radix2 (IZR z) <= 53)%Z.
    { apply mag_le_bpow; [apply IZR_neq; auto|]. rewrite <- abs_IZR. change (bpow radix2 53) with (IZR (2 ^ 53)). apply IZR_lt. lia. }
    lia. }
  change (round radix2 (SpecFloat.fexp 53 1024) (round_mode mode_NE) (IZR z)) with (rnd (IZR z)) in C. rewrite big_lt in C.
  - destruct C as [C1 [C2 _]]. split; auto. etransitivity; [exact C1|]. apply (rnd_gen _ G).
  - rewrite <- abs_IZR. apply Rle_trans with (bpow radix2 53); [change (bpow radix2 53) with (IZR (2 ^ 53)); apply IZR_le; lia|apply bpow_le; lia].
Qed.

(** ** operations on numbers with known bounds *)
Lemma Rabs_mult_le : forall a b A B, Rabs a <= A -> Rabs b <= B -> Rabs (a * b) <= A * B.
Proof. intros a b A B H K. rewrite Rabs_mult. apply Rmult_le_compat; auto using Rabs_pos. Qed.
Lemma Rabs_plus_le : forall a b A B, Rabs a <= A -> Rabs b <= B -> Rabs (a + b) <= A + B.
Proof. intros a b A B H K. eapply Rle_trans; [apply Rabs_triang|]. lra. Qed.
Lemma Rabs_close : forall x r e B, Rabs (x - r) <= e -> Rabs r <= B -> Rabs x <= B + e.
Proof. intros x r e B H K. replace x with (r + (x - r)) by ring. apply Rabs_plus_le; auto. Qed.
Lemma uro_pos : 0 < uro.
Proof. unfold uro. lra. Qed.
Lemma uro_le : forall a b, a <= b -> uro * a <= uro * b.
Proof. intros a b H. apply Rmult_le_compat_l; auto. left. apply uro_pos. Qed.
Lemma mul_b : forall (x y : F64) A M, fin x = true -> fin y = true -> Rabs (B2R x) <= A -> Rabs (B2R y) <= M -> A * M <= big ->
  fin (nmul x y) = true /\ Rabs (B2R (nmul x y) - B2R x * B2R y) <= uro * (A * M) + eta.
Proof.
  intros x y A M X Y HA HM B. pose proof (Rabs_mult_le _ _ _ _ HA HM) as P.
  destruct (mul_R x y X Y) as [F E]; [lra|]. split; auto. rewrite E. eapply Rle_trans; [apply rnd_err|]. apply uro_le in P. lra.
Qed.
Lemma add_b : forall (x y : F64) A M, fin x = true -> fin y = true -> Rabs (B2R x) <= A -> Rabs (B2R y) <= M -> A + M <= big ->
  fin (nadd x y) = true /\ Rabs (B2R (nadd x y) - (B2R x + B2R y)) <= uro * (A + M).
Proof.
  intros x y A M X Y HA HM B. pose proof (Rabs_plus_le _ _ _ _ HA HM) as P.
  destruct (add_R x y X Y) as [F E]; [lra|]. split; auto. rewrite E. eapply Rle_trans; [apply rnd_plus; apply gen_B2R|]. apply uro_le in P. lra.
Qed.
Lemma sub_b : forall (x y : F64) A M, fin x = true -> fin y = true -> Rabs (B2R x) <= A -> Rabs (B2R y) <= M -> A + M <= big ->
  fin (nsub x y) = true /\ Rabs (B2R (nsub x y) - (B2R x - B2R y)) <= uro * (A + M).
Proof.
  intros x y A M X Y HA HM B. assert (HM' : Rabs (- B2R y) <= M) by (rewrite Rabs_Ropp; auto).
  pose proof (Rabs_plus_le _ _ _ _ HA HM') as P.
  destruct (sub_R x y X Y) as [F E]; [unfold Rminus; lra|]. split; auto. rewrite E. unfold Rminus in *.
  eapply Rle_trans; [apply rnd_plus; [apply gen_B2R|apply generic_format_opp, gen_B2R]|]. apply uro_le in P. lra.
Qed.
Lemma eta_le : forall e, (-1075 <= e)%Z -> eta <= bpow radix2 e.
Proof. intros e H. apply bpow_le. auto. Qed.

Lemma eta_big : eta <= big / 1024.
Proof.
  unfold big. replace (bpow radix2 1023 / 1024) with (bpow radix2 1013); [apply eta_le; lia|]. change 1023%Z with (1013 + 10)%Z. rewrite bpow_plus.
  change (bpow radix2 10) with 1024. field.
Qed.

(** dot products *)
Definition dot3 (a1 a2 a3 v1 v2 v3 : F64) : F64 := nadd (nadd (nmul a1 v1) (nmul a2 v2)) (nmul a3 v3).
Lemma dot3_b : forall (a1 a2 a3 v1 v2 v3 : F64) A M,
  fin a1 = true -> fin a2 = true -> fin a3 = true -> fin v1 = true -> fin v2 = true -> fin v3 = true ->
  Rabs (B2R a1) <= A -> Rabs (B2R a2) <= A -> Rabs (B2R a3) <= A -> Rabs (B2R v1) <= M -> Rabs (B2R v2) <= M -> Rabs (B2R v3) <= M ->
  A * M <= big / 8 ->
  fin (dot3 a1 a2 a3 v1 v2 v3) = true /\
  Rabs (B2R (dot3 a1 a2 a3 v1 v2 v3) - (B2R a1 * B2R v1 + B2R a2 * B2R v2 + B2R a3 * B2R v3)) <= 9 * uro * (A * M) + 6 * eta.
Proof.
  intros a1 a2 a3 v1 v2 v3 A M F1 F2 F3 G1 G2 G3 A1 A2 A3 M1 M2 M3 B. pose proof big_pos as BP. pose proof eta_pos as EP.
  pose proof eta_big as EB.
  destruct (mul_b a1 v1 A M) as [P1 E1]; auto; [lra|]. destruct (mul_b a2 v2 A M) as [P2 E2]; auto; [lra|]. destruct (mul_b a3 v3 A M) as [P3 E3]; auto; [lra|].
  pose proof (Rabs_mult_le _ _ _ _ A1 M1) as Q1. pose proof (Rabs_mult_le _ _ _ _ A2 M2) as Q2. pose proof (Rabs_mult_le _ _ _ _ A3 M3) as Q3.
  set (P := A * M) in *. assert (P0 : 0 <= P) by (eapply Rle_trans; [apply Rabs_pos|exact Q1]).
  assert (B1 := Rabs_close _ _ _ _ E1 Q1). assert (B2 := Rabs_close _ _ _ _ E2 Q2). assert (B3 := Rabs_close _ _ _ _ E3 Q3).
  unfold uro in *.
  destruct (add_b (nmul a1 v1) (nmul a2 v2) _ _ P1 P2 B1 B2) as [S1 T1]; [lra|].
  assert (Q12 := Rabs_plus_le _ _ _ _ Q1 Q2).
  assert (T1' : Rabs (B2R (nadd (nmul a1 v1) (nmul a2 v2)) - (B2R a1 * B2R v1 + B2R a2 * B2R v2)) <= (4 + / 100) * / 9007199254740992 * P + 3 * eta).
  { replace (_ - _) with ((B2R (nadd (nmul a1 v1) (nmul a2 v2)) - (B2R (nmul a1 v1) + B2R (nmul a2 v2))) + ((B2R (nmul a1 v1) - B2R a1 * B2R v1) + (B2R (nmul a2 v2) - B2R a2 * B2R v2))) by ring.
    eapply Rle_trans; [apply Rabs_plus_le; [exact T1|apply Rabs_plus_le; [exact E1|exact E2]]|]. unfold uro. lra. }
  assert (B12 := Rabs_close _ _ _ _ T1' Q12).
  destruct (add_b (nadd (nmul a1 v1) (nmul a2 v2)) (nmul a3 v3) _ _ S1 P3 B12 B3) as [S2 T2]; [lra|].
  split; [exact S2|]. unfold dot3.
  replace (_ - _) with ((B2R (nadd (nadd (nmul a1 v1) (nmul a2 v2)) (nmul a3 v3)) - (B2R (nadd (nmul a1 v1) (nmul a2 v2)) + B2R (nmul a3 v3))) +
     ((B2R (nadd (nmul a1 v1) (nmul a2 v2)) - (B2R a1 * B2R v1 + B2R a2 * B2R v2)) + (B2R (nmul a3 v3) - B2R a3 * B2R v3))) by ring.
  eapply Rle_trans; [apply Rabs_plus_le; [exact T2|apply Rabs_plus_le; [exact T1'|exact E3]]|]. unfold uro. lra.
Qed.
(** a row of a transform applied to a vector *)
Lemma row_b : forall (a1 a2 a3 v1 v2 v3 t : F64) A M N,
  fin a1 = true -> fin a2 = true -> fin a3 = true -> fin v1 = true -> fin v2 = true -> fin v3 = true -> fin t = true ->
  Rabs (B2R a1) <= A -> Rabs (B2R a2) <= A -> Rabs (B2R a3) <= A -> Rabs (B2R v1) <= M -> Rabs (B2R v2) <= M -> Rabs (B2R v3) <= M ->
  Rabs (B2R t) <= N -> A * M <= big / 8 -> N <= big / 8 ->
  fin (nadd (dot3 a1 a2 a3 v1 v2 v3) t) = true /\
  Rabs (B2R (nadd (dot3 a1 a2 a3 v1 v2 v3) t) - (B2R a1 * B2R v1 + B2R a2 * B2R v2 + B2R a3 * B2R v3 + B2R t)) <= 13 * uro * (A * M) + uro * N + 7 * eta.
Proof.
  intros a1 a2 a3 v1 v2 v3 t A M N F1 F2 F3 G1 G2 G3 FT A1 A2 A3 M1 M2 M3 HN B BN. pose proof big_pos as BP. pose proof eta_pos as EP.
  pose proof eta_big as EB.
  destruct (dot3_b a1 a2 a3 v1 v2 v3 A M) as [D E]; auto.
  pose proof (Rabs_mult_le _ _ _ _ A1 M1) as Q1. pose proof (Rabs_mult_le _ _ _ _ A2 M2) as Q2. pose proof (Rabs_mult_le _ _ _ _ A3 M3) as Q3.
  assert (Q := Rabs_plus_le _ _ _ _ (Rabs_plus_le _ _ _ _ Q1 Q2) Q3). set (P := A * M) in *. assert (P0 : 0 <= P) by (eapply Rle_trans; [apply Rabs_pos|exact Q1]).
  assert (N0 : 0 <= N) by (eapply Rle_trans; [apply Rabs_pos|exact HN]).
  assert (BD := Rabs_close _ _ _ _ E Q). unfold uro in *.
  destruct (add_b (dot3 a1 a2 a3 v1 v2 v3) t _ _ D FT BD HN) as [S1 T1]; [lra|]. split; [exact S1|].
  replace (_ - _) with ((B2R (nadd (dot3 a1 a2 a3 v1 v2 v3) t) - (B2R (dot3 a1 a2 a3 v1 v2 v3) + B2R t)) +
    (B2R (dot3 a1 a2 a3 v1 v2 v3) - (B2R a1 * B2R v1 + B2R a2 * B2R v2 + B2R a3 * B2R v3))) by ring.
  eapply Rle_trans; [apply Rabs_plus_le; [exact T1|exact E]|]. unfold uro. lra.
Qed.
