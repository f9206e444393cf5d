(** NaN depths of the depth camera, on the doubles and floats of the code *)
From Coq Require Import ZArith NArith List Bool Lia Reals Lra.
From Flocq Require Import Core BinarySingleNaN.
From Verif Require Import Num NumOrd MathTypes Outcome Mesh P_Tac SpecRound P_Round P_OctF P_F32 P_RayF P_KeyF Depth P_Depth P_Depth3.
Import ListNotations.
Local Open Scope R_scope.

Definition gen32 (x : R) : Prop := generic_format radix2 (FLT_exp (-149) 24) x.
Definition num (x : F64) : Prop := is_nan x = false.
Lemma nan_eqb : forall x : F64, neqb x x = false <-> is_nan x = true.
Proof.
  intros x. split; intro H.
  - destruct (is_nan x) eqn:E; auto. rewrite (neqb_refl_num x) in H; [discriminate|]. unfold is_num. destruct x as [[|]|[|]| |s m e B]; discriminate.
  - destruct x; discriminate || reflexivity.
Qed.
Lemma fin_num : forall x : F64, fin x = true -> num x.
Proof. intros x F. unfold num. destruct x; auto; discriminate. Qed.

Lemma gen32_gen : forall x, gen32 x -> gen x.
Proof.
  intros x G. apply (generic_inclusion_mag radix2 (FLT_exp (-149) 24)); [|exact G]. intros _. unfold SpecFloat.fexp, SpecFloat.emin, FLT_exp. lia.
Qed.
Lemma gen32_rnd : forall x, gen32 (rnd32 x).
Proof. intros x. pose proof prec32_gt0. apply generic_format_round; auto with typeclass_instances. Qed.
Lemma gen32_mult : forall m e, (Z.abs m <= 2 ^ 24)%Z -> (-149 <= e)%Z -> gen32 (IZR m * bpow radix2 e).
Proof.
  intros m e M E. destruct (Z.eq_dec (Z.abs m) (2 ^ 24)) as [EQ|NE].
  - assert (G : gen32 (bpow radix2 (24 + e))) by (apply generic_format_bpow; unfold FLT_exp; lia).
    rewrite bpow_plus in G. change (bpow radix2 24) with (IZR (2 ^ 24)) in G.
    destruct (Z_lt_le_dec m 0) as [L|L].
    + replace m with (- (2 ^ 24))%Z by lia. rewrite opp_IZR, Ropp_mult_distr_l_reverse. apply generic_format_opp. exact G.
    + replace m with (2 ^ 24)%Z by lia. exact G.
  - apply generic_format_FLT. exists (Float radix2 m e); auto. cbn [Fnum]. change (radix2 ^ 24)%Z with (2 ^ 24)%Z. lia.
Qed.
Lemma rnd32_bound : forall x X, gen32 X -> Rabs x <= X -> Rabs (rnd32 x) <= X.
Proof. intros x X G H. pose proof prec32_gt0. apply abs_round_le_generic; auto with typeclass_instances. Qed.
Lemma rnd_bound : forall x X, gen X -> Rabs x <= X -> Rabs (rnd x) <= X.
Proof. intros x X G H. apply abs_round_le_generic; auto; [apply (fexp_correct 53 1024); exact prec64_gt0|apply valid_rnd_N]. Qed.

(** a correctly rounded double followed by the conversion to float *)
Lemma single : forall (z : F64) v X, fin z = true -> B2R z = rnd v -> gen32 X -> X <= bpow radix2 127 -> Rabs v <= X ->
  fin (nf32 z) = true /\ B2R (nf32 z) = rnd32 (rnd v) /\ Rabs (B2R (nf32 z)) <= X.
Proof.
  intros z v X F E G L H. assert (B : Rabs (rnd32 (rnd v)) <= X) by (apply rnd32_bound; auto; apply rnd_bound; auto; apply gen32_gen; auto).
  destruct (nf32_spec z F) as [A C].
  { rewrite E. eapply Rle_lt_trans; [exact B|]. eapply Rle_lt_trans; [exact L|]. apply bpow_lt. lia. }
  rewrite E in C. split; auto. split; auto. rewrite C. exact B.
Qed.
Lemma big127 : bpow radix2 127 <= big.
Proof. unfold big. apply bpow_le. lia. Qed.
Definition ok (X : R) (x : F64) : Prop := fin x = true /\ gen32 (B2R x) /\ Rabs (B2R x) <= X.
Lemma ok_le : forall X Y x, ok X x -> X <= Y -> ok Y x.
Proof. intros X Y x [A [B C]] L. repeat split; auto. lra. Qed.
Lemma f_add : forall a b X Y Z, ok X a -> ok Y b -> X + Y <= Z -> gen32 Z -> Z <= bpow radix2 127 -> ok Z (fadd a b) /\ B2R (fadd a b) = rnd32 (rnd (B2R a + B2R b)).
Proof.
  intros a b X Y Z [FA [_ BA]] [FB [_ BB]] L G LZ. pose proof big127. assert (H' : Rabs (B2R a + B2R b) <= Z) by (eapply Rle_trans; [apply Rabs_triang|lra]).
  destruct (add_R a b FA FB) as [F E]; [lra|]. destruct (single _ _ Z F E G LZ H') as [A [B C]]. unfold fadd. split; auto. repeat split; auto. rewrite B. apply gen32_rnd.
Qed.
Lemma f_sub : forall a b X Y Z, ok X a -> ok Y b -> X + Y <= Z -> gen32 Z -> Z <= bpow radix2 127 -> ok Z (fsub a b) /\ B2R (fsub a b) = rnd32 (rnd (B2R a - B2R b)).
Proof.
  intros a b X Y Z [FA [_ BA]] [FB [_ BB]] L G LZ. pose proof big127.
  assert (H' : Rabs (B2R a - B2R b) <= Z) by (unfold Rminus; eapply Rle_trans; [apply Rabs_triang|rewrite Rabs_Ropp; lra]).
  destruct (sub_R a b FA FB) as [F E]; [lra|]. destruct (single _ _ Z F E G LZ H') as [A [B C]]. unfold fsub. split; auto. repeat split; auto. rewrite B. apply gen32_rnd.
Qed.
Lemma f_mul : forall a b X Y Z, ok X a -> ok Y b -> X * Y <= Z -> gen32 Z -> Z <= bpow radix2 127 -> ok Z (fmul a b).
Proof.
  intros a b X Y Z [FA [_ BA]] [FB [_ BB]] L G LZ. pose proof big127.
  assert (H' : Rabs (B2R a * B2R b) <= Z) by (rewrite Rabs_mult; eapply Rle_trans; [apply Rmult_le_compat; try apply Rabs_pos; eauto|auto]).
  destruct (mul_R a b FA FB) as [F E]; [lra|]. destruct (single _ _ Z F E G LZ H') as [A [B C]]. unfold fmul. repeat split; auto. rewrite B. apply gen32_rnd.
Qed.
(** division by an integer of at least 1 *)
Lemma f_div : forall a b X, ok X a -> fin b = true -> 1 <= Rabs (B2R b) -> gen32 X -> X <= bpow radix2 127 -> ok X (fdiv a b).
Proof.
  intros a b X [FA [_ BA]] FB LB G LZ. pose proof big127. assert (NZ : B2R b <> 0) by (intro Z; rewrite Z, Rabs_R0 in LB; lra).
  assert (H' : Rabs (B2R a / B2R b) <= X).
  { unfold Rdiv. rewrite Rabs_mult, Rabs_inv. apply Rle_trans with (Rabs (B2R a) * 1); [|lra]. apply Rmult_le_compat_l; [apply Rabs_pos|].
    rewrite <- Rinv_1. apply Rinv_le_contravar; lra. }
  destruct (div_R a b FA NZ) as [F E]; [lra|]. destruct (single _ _ X F E G LZ H') as [A [B C]]. unfold fdiv. repeat split; auto. rewrite B. apply gen32_rnd.
Qed.
Lemma ok_ofZ : forall z, (Z.abs z <= 2 ^ 32)%Z -> ok (bpow radix2 32) (fofZ z) /\ (z <> 0%Z -> 1 <= Rabs (B2R (fofZ z : F64))).
Proof.
  intros z L. destruct (ofZ_R z ltac:(lia)) as [F E]. assert (GZ : rnd (IZR z) = IZR z) by (rewrite <- E; apply rnd_gen, gen_B2R).
  assert (B : Rabs (IZR z) <= bpow radix2 32). { rewrite <- abs_IZR. change (bpow radix2 32) with (IZR (2 ^ 32)). apply IZR_le. exact L. }
  destruct (single (nofZ z) (IZR z) (bpow radix2 32) F) as [A [C D]]; auto; [congruence|apply generic_format_bpow; unfold FLT_exp; lia|apply bpow_le; lia|].
  split; [repeat split; auto; unfold fofZ; rewrite C; apply gen32_rnd|]. intros NZ. unfold fofZ. rewrite C, GZ.
  pose proof prec32_gt0. apply abs_round_ge_generic; auto with typeclass_instances.
  - change 1 with (bpow radix2 0). apply generic_format_bpow. unfold FLT_exp. lia.
  - rewrite <- abs_IZR. apply IZR_le. lia.
Qed.

(** the difference of two floats vanishes only for equal floats *)
Lemma sub_zero : forall a b X Z, ok X a -> ok X b -> X + X <= Z -> gen32 Z -> Z <= bpow radix2 127 -> (B2R (fsub a b) = 0 <-> B2R a = B2R b).
Proof.
  intros a b X Z A B L G LZ. destruct (f_sub a b X X Z A B L G LZ) as [_ E]. rewrite E. clear E.
  pose proof prec32_gt0 as P32. assert (V : Valid_exp (FLT_exp (-149) 24)) by auto with typeclass_instances. split; intro H.
  - destruct A as [_ [GA _]]. destruct B as [_ [GB _]].
    assert (ME : forall x, gen32 x -> exists m, x = IZR m * bpow radix2 (-149)).
    { intros x GX. apply FLT_format_generic in GX; auto. destruct GX as [f E1 E2 E3]. exists (Fnum f * 2 ^ (Fexp f + 149))%Z. rewrite E1. unfold F2R.
      rewrite mult_IZR, Rmult_assoc. f_equal. change (IZR (2 ^ (Fexp f + 149))) with (IZR (radix2 ^ (Fexp f + 149))). rewrite IZR_Zpower by lia. rewrite <- bpow_plus. f_equal. ring. }
    destruct (ME _ GA) as [m EM]. destruct (ME _ GB) as [n EN]. destruct (Z.eq_dec m n) as [->|NE]; [congruence|]. exfalso.
    assert (D : bpow radix2 (-149) <= Rabs (B2R a - B2R b)).
    { rewrite EM, EN. replace (IZR m * bpow radix2 (-149) - IZR n * bpow radix2 (-149)) with (IZR (m - n) * bpow radix2 (-149)) by (rewrite minus_IZR; ring).
      rewrite Rabs_mult, (Rabs_right (bpow _ _)) by (apply Rle_ge, bpow_ge_0). rewrite <- (Rmult_1_l (bpow radix2 (-149))) at 1. apply Rmult_le_compat_r; [apply bpow_ge_0|].
      rewrite <- abs_IZR. apply IZR_le. lia. }
    assert (G1 : gen32 (bpow radix2 (-149))) by (apply generic_format_bpow; unfold FLT_exp; lia).
    assert (D1 : bpow radix2 (-149) <= Rabs (rnd (B2R a - B2R b))).
    { apply abs_round_ge_generic; auto; [apply (fexp_correct 53 1024); exact prec64_gt0|apply valid_rnd_N|apply gen32_gen; auto]. }
    assert (D2 : bpow radix2 (-149) <= Rabs (rnd32 (rnd (B2R a - B2R b)))).
    { apply abs_round_ge_generic; auto with typeclass_instances. }
    rewrite H, Rabs_R0 in D2. pose proof (bpow_gt_0 radix2 (-149)). lra.
  - rewrite H, Rminus_diag_eq by auto. rewrite (rnd_gen 0 gen_0). unfold rnd32. apply round_0. auto with typeclass_instances.
Qed.

(** *** what is not a NaN *)
Lemma inf_sf : forall prec emax (z : binary_float prec emax) s, B2SF z = SpecFloat.S754_infinity s -> z = B754_infinity s.
Proof. intros prec emax [a|a| |a m e B] s H; cbn in H; try discriminate. injection H as ->. reflexivity. Qed.
Lemma nf32_inf : forall s, nf32 (B754_infinity s : F64) = B754_infinity s.
Proof. reflexivity. Qed.
Lemma nf32_num : forall x : F64, num x -> num (nf32 x).
Proof.
  intros x N. destruct x as [s|s| |s m e B]; auto. unfold num. cbn [nf32 NumF f64_to_f32].
  pose proof (binary_normalize_correct 24 128 prec32_gt0 emax32_gt mode_NE (cond_Zopp s (Zpos m)) e s) as C. cbv zeta in C.
  set (z := binary_normalize 24 128 prec32_gt0 emax32_gt mode_NE (cond_Zopp s (Zpos m)) e s) in *. clearbody z. clear N.
  destruct (Rlt_bool _ _).
  - destruct C as [_ [F _]]. destruct (f32_to_f64_spec z F) as [G _]. apply fin_num. exact G.
  - change (SpecFloat.S754_infinity (Rlt_bool (F2R (Float radix2 (cond_Zopp s (Zpos m)) e)) 0)) with (SpecFloat.S754_infinity (Rlt_bool (F2R (Float radix2 (cond_Zopp s (Zpos m)) e)) 0)) in C.
    unfold binary_overflow in C. cbn [overflow_to_inf] in C. apply inf_sf in C. rewrite C. reflexivity.
Qed.
Lemma over_num : forall (z : F64) s, B2SF z = binary_overflow 53 1024 mode_NE s -> num z.
Proof. intros z s H. unfold binary_overflow in H. cbn [overflow_to_inf] in H. apply inf_sf in H. rewrite H. reflexivity. Qed.
Lemma plus_ff : forall a b : F64, fin a = true -> fin b = true -> num (nadd a b).
Proof.
  intros a b A B. pose proof (Bplus_correct 53 1024 prec64_gt0 emax64_gt mode_NE a b A B) as C. destruct (Rlt_bool _ _).
  - apply fin_num. apply C.
  - eapply over_num. apply C.
Qed.
Lemma plus_fi : forall (a : F64) s, fin a = true -> nadd a (B754_infinity s) = B754_infinity s.
Proof. intros [a|a| |a m e B] s F; try discriminate F; reflexivity. Qed.
Lemma plus_if : forall (a : F64) s, fin a = true -> nadd (B754_infinity s : F64) a = B754_infinity s.
Proof. intros [a|a| |a m e B] s F; try discriminate F; reflexivity. Qed.
Lemma plus_ii : forall s, nadd (B754_infinity s : F64) (B754_infinity s) = B754_infinity s.
Proof. intros []; reflexivity. Qed.
Lemma mult_ff : forall a b : F64, fin a = true -> fin b = true -> num (nmul a b).
Proof.
  intros a b A B. pose proof (Bmult_correct 53 1024 prec64_gt0 emax64_gt mode_NE a b) as C. destruct (Rlt_bool _ _).
  - destruct C as [_ [C _]]. apply fin_num. rewrite A, B in C. exact C.
  - eapply over_num. apply C.
Qed.
Lemma mult_if : forall (a : F64) s, fin a = true -> 0 < B2R a -> nmul (B754_infinity s : F64) a = B754_infinity s.
Proof.
  intros [a|a| |a m e B] s F P; try discriminate F; cbn [B2R] in P; [lra|]. destruct a.
  - exfalso. assert (X : F2R (Float radix2 (cond_Zopp true (Zpos m)) e) < 0) by (apply F2R_lt_0; reflexivity). lra.
  - cbn. rewrite xorb_false_r. reflexivity.
Qed.
Lemma div_ff : forall a b : F64, fin a = true -> B2R b <> 0 -> num (ndiv a b).
Proof.
  intros a b A NZ. pose proof (Bdiv_correct 53 1024 prec64_gt0 emax64_gt mode_NE a b NZ) as C. destruct (Rlt_bool _ _).
  - destruct C as [_ [C _]]. apply fin_num. rewrite A in C. exact C.
  - eapply over_num. apply C.
Qed.
Lemma fin_zero : forall b : F64, fin b = true -> B2R b = 0 -> exists s, b = B754_zero s.
Proof.
  intros [s|s| |s m e B] F Z; try discriminate F; [eauto|]. exfalso. cbn [B2R] in Z. apply eq_0_F2R in Z. destruct s; discriminate Z.
Qed.
Lemma div_zero : forall (a : F64) s, fin a = true -> B2R a <> 0 -> exists s', ndiv a (B754_zero s) = B754_infinity s'.
Proof. intros [a|a| |a m e B] s F NZ; try discriminate F; [cbn in NZ; lra|]. eexists. reflexivity. Qed.
Lemma div_00 : forall s s', ndiv (B754_zero s : F64) (B754_zero s') = B754_nan.
Proof. reflexivity. Qed.
Lemma recip_num : forall b : F64, num b -> num (fdiv n1 b).
Proof.
  intros b N. unfold fdiv. apply nf32_num. assert (F1 : fin (n1 : F64) = true) by reflexivity.
  assert (E1 : B2R (n1 : F64) <> 0). { destruct (ofZ_R 1 ltac:(lia)) as [_ E]. unfold n1. rewrite E. lra. }
  destruct (fin b) eqn:F.
  - destruct (Req_dec (B2R b) 0) as [Z|NZ]; [|apply div_ff; auto]. destruct (fin_zero b F Z) as [s ->]. destruct (div_zero n1 s F1 E1) as [s' ->]. reflexivity.
  - destruct b as [s|s| |s m e B]; try discriminate F; [reflexivity|discriminate N].
Qed.
Lemma recip_nan : fdiv n1 (B754_nan : F64) = B754_nan.
Proof. reflexivity. Qed.

(** *** one row *)
Definition J (d dd : F64) : Prop := num d /\ num dd /\ (fin dd = true \/ fin d = true \/ d = dd).
Lemma not_fin : forall x : F64, num x -> fin x = false -> exists s, x = B754_infinity s.
Proof. intros [s|s| |s m e B] N F; try discriminate F; [eauto|discriminate N]. Qed.
Lemma add_num : forall d dd, num d -> num dd -> fin d = true \/ fin dd = true \/ d = dd -> num (fadd d dd) /\ (fin dd = false -> fadd d dd = dd).
Proof.
  intros d dd N1 N2 H. unfold fadd. destruct (fin d) eqn:F1, (fin dd) eqn:F2.
  - split; [|discriminate]. apply nf32_num, plus_ff; auto.
  - destruct (not_fin dd N2 F2) as [s ->]. rewrite plus_fi by auto. rewrite nf32_inf. auto.
  - split; [|discriminate]. destruct (not_fin d N1 F1) as [s ->]. rewrite plus_if by auto. apply nf32_num. auto.
  - destruct H as [H|[H|H]]; try discriminate. subst dd. destruct (not_fin d N1 F1) as [s ->]. rewrite plus_ii, nf32_inf. auto.
Qed.
Lemma J_step : forall d dd, J d dd -> J (fadd d dd) dd.
Proof.
  intros d dd [N1 [N2 H]]. destruct (add_num d dd N1 N2) as [A B]; [tauto|]. split; auto. split; auto. destruct (fin dd) eqn:F; auto.
Qed.
Lemma row_px_num : forall n x y d dd i p, J d dd -> In p (row_px n x y d dd i) -> num (px_d p).
Proof.
  induction n as [|n IH]; intros x y d dd i p H I; [destruct I|]. cbn [row_px] in I. destruct I as [<-|I].
  - cbn [px_d]. apply recip_num. apply H.
  - apply (IH _ _ _ _ _ _ (J_step _ _ H) I).
Qed.

Definition X98 (n : Z) : R := IZR n * bpow radix2 98.
Lemma X98_ok : forall n, (0 <= n <= 2 ^ 25)%Z -> X98 n <= bpow radix2 123 /\ 0 <= X98 n.
Proof.
  intros n [L H]. unfold X98. split.
  - change 123%Z with (25 + 98)%Z. rewrite bpow_plus. apply Rmult_le_compat_r; [apply bpow_ge_0|]. change (bpow radix2 25) with (IZR (2 ^ 25)). apply IZR_le. exact H.
  - apply Rmult_le_pos; [apply IZR_le; exact L|apply bpow_ge_0].
Qed.
Lemma ret_inj : forall (A : Type) (a b : A), Ret a = Ret b -> a = b.
Proof. intros A a b H. injection H as ->. reflexivity. Qed.
Lemma row_nan : forall w y (xs xe ds de : F64) i ps, ok (bpow radix2 123) xs -> ok (bpow radix2 123) xe -> ok (bpow radix2 123) ds -> ok (bpow radix2 123) de ->
  row w y xs xe ds de i = Ret ps ->
  (forall p, In p ps -> is_nan (px_d p) = true -> px_x p = 0%Z) /\
  ((exists p, In p ps /\ is_nan (px_d p) = true) <-> (0 < w)%Z /\ B2R xs = B2R xe /\ -1 < B2R xs < 0 /\ B2R ds = B2R de).
Proof.
  intros w y xs xe ds de i ps OXS OXE ODS ODE H.
  assert (GZ : gen32 (bpow radix2 124)) by (apply generic_format_bpow; unfold FLT_exp; lia).
  assert (LZ : bpow radix2 124 <= bpow radix2 127) by (apply bpow_le; lia).
  assert (DB : bpow radix2 123 + bpow radix2 123 <= bpow radix2 124) by (right; change 124%Z with (1 + 123)%Z; rewrite bpow_plus; change (bpow radix2 1) with 2; ring).
  destruct (f_sub de ds _ _ _ ODE ODS DB GZ LZ) as [[FDD [_ _]] _]. destruct (f_sub xe xs _ _ _ OXE OXS DB GZ LZ) as [[FDX [_ _]] _].
  pose proof (sub_zero de ds _ _ ODE ODS DB GZ LZ) as ZD. pose proof (sub_zero xe xs _ _ OXE OXS DB GZ LZ) as ZX.
  destruct (ofZ_R 0 ltac:(lia)) as [FZ EZ]. change (nofZ 0 : F64) with (n0 : F64) in FZ, EZ.
  destruct OXS as [FXS _]. destruct OXE as [FXE _]. destruct ODS as [FDS _]. destruct ODE as [FDE _].
  unfold row in H. rewrite (ltb_R xs n0 FXS FZ), EZ in H.
  set (dlt := fdiv (fsub de ds) (fsub xe xs)) in *.
  assert (NEG : fin (nopp xs) = true /\ B2R (nopp xs) = - B2R xs) by (apply opp_R; auto). destruct NEG as [FN EN].
  (* all pixels are numbers if the slope is one *)
  assert (GOOD : num dlt -> forall p, In p ps -> num (px_d p)).
  { intros ND p I. destruct (Rltb (B2R xs) 0) eqn:S; rboolH.
    - cbn [obind] in H. destruct (toint xe) as [e|]; [|discriminate]. cbn [or_ub obind] in H. apply ret_inj in H; subst ps. apply (row_px_num _ _ _ _ _ _ p) in I; auto.
      destruct (fin dlt) eqn:FD.
      + assert (NM : num (fmul dlt (nopp xs))) by (apply nf32_num, mult_ff; auto). destruct (add_num ds _ (fin_num _ FDS) NM) as [A _]; auto. split; auto.
      + destruct (not_fin dlt ND FD) as [s E].
        assert (M : fmul (B754_infinity s : F64) (nopp xs) = B754_infinity s) by (unfold fmul; rewrite (mult_if (nopp xs) s FN); [reflexivity|lra]).
        destruct (add_num ds (B754_infinity s) (fin_num _ FDS) eq_refl) as [A B]; auto. rewrite E. change (J (fadd ds (fmul (B754_infinity s : F64) (nopp xs))) (B754_infinity s)).
        rewrite M. split; auto. split; [reflexivity|]. right. right. apply B. reflexivity.
    - destruct (toint xs) as [z|]; [|discriminate]. cbn [or_ub obind] in H. destruct (toint xe) as [e|]; [|discriminate]. cbn [or_ub obind] in H. apply ret_inj in H; subst ps.
      apply (row_px_num _ _ _ _ _ _ p) in I; auto. split; [apply fin_num; auto|]. split; auto. }
  destruct (Req_dec (B2R xe) (B2R xs)) as [EX|NX].
  2:{ assert (ND : num dlt) by (apply nf32_num, div_ff; auto; rewrite ZX; auto). split.
      - intros p I N. specialize (GOOD ND p I). unfold num in GOOD. congruence.
      - split; [|intros [_ [E _]]; congruence]. intros [p [I N]]. specialize (GOOD ND p I). unfold num in GOOD. congruence. }
  (* both ends at the same place *)
  destruct (fin_zero _ FDX (proj2 ZX EX)) as [sx DX].
  destruct (Req_dec (B2R de) (B2R ds)) as [ED|ND].
  2:{ assert (NDL : num dlt). { unfold dlt, fdiv. rewrite DX. destruct (div_zero (fsub de ds) sx FDD) as [s' ->]; [rewrite ZD; auto|]. reflexivity. }
      split.
      - intros p I N. specialize (GOOD NDL p I). unfold num in GOOD. congruence.
      - split; [|intros [_ [_ [_ E]]]; congruence]. intros [p [I N]]. specialize (GOOD NDL p I). unfold num in GOOD. congruence. }
  destruct (fin_zero _ FDD (proj2 ZD ED)) as [sd DD].
  assert (DN : dlt = B754_nan) by (unfold dlt; rewrite DX, DD; reflexivity). clear GOOD. rewrite DN in H.
  destruct (Rltb (B2R xs) 0) eqn:S; rboolH.
  - cbn [obind] in H. destruct (toint xe) as [e|] eqn:TE; [|discriminate]. cbn [or_ub obind] in H. apply ret_inj in H; subst ps. apply toint_F in TE as [_ [TE IR]].
    rewrite EX in TE. assert (E0 : (e <= 0)%Z). { rewrite <- TE, <- (Ztrunc_IZR 0). apply Ztrunc_le. lra. }
    split.
    { intros p I _. apply row_px_in in I. lia. }
    assert (NAN : fadd ds (fmul (B754_nan : F64) (nopp xs)) = B754_nan) by (clear - FDS; destruct ds as [s|s| |s m e B]; try discriminate FDS; reflexivity). rewrite NAN. clear NAN.
    assert (TC : (e = 0)%Z <-> -1 < B2R xs).
    { rewrite <- TE. split; intro Q.
      - destruct (Rle_lt_dec (B2R xs) (-1)) as [L|L]; auto. exfalso. apply Ztrunc_le in L. rewrite (Ztrunc_IZR (-1)) in L. lia.
      - rewrite Ztrunc_ceil by lra. apply Zceil_imp. cbn. lra. }
    split.
    + intros [p [I _]]. destruct (Z.to_nat (Z.min (w - 1) e - 0 + 1)) eqn:K; [destruct I|]. split; [lia|]. split; auto. split; [|auto]. split; [|auto]. apply TC. lia.
    + intros [W [_ [[L _] _]]]. apply TC in L. replace (Z.to_nat (Z.min (w - 1) e - 0 + 1)) with 1%nat by lia. eexists. split; [left; reflexivity|]. cbn [px_d]. rewrite recip_nan. reflexivity.
  - destruct (toint xs) as [z|] eqn:TS; [|discriminate]. cbn [or_ub obind] in H. destruct (toint xe) as [e|] eqn:TE; [|discriminate]. cbn [or_ub obind] in H. apply ret_inj in H; subst ps.
    apply toint_F in TS as [_ [TS _]]. apply toint_F in TE as [_ [TE _]]. rewrite EX in TE. assert (ZE : z = e) by congruence. clear TS. subst z.
    assert (ALL : forall p, In p (row_px (Z.to_nat (Z.min (w - 1) e - e + 1)) e y ds B754_nan i) -> num (px_d p)).
    { intros p I. assert (K : Z.to_nat (Z.min (w - 1) e - e + 1) = 0%nat \/ Z.to_nat (Z.min (w - 1) e - e + 1) = 1%nat) by lia. destruct K as [K|K]; rewrite K in I; [destruct I|].
      destruct I as [<-|[]]. cbn [px_d]. apply recip_num, fin_num. auto. }
    split.
    + intros p I N. specialize (ALL p I). unfold num in ALL. congruence.
    + split; [|intros [_ [_ [L _]]]; lra]. intros [p [I N]]. specialize (ALL p I). unfold num in ALL. congruence.
Qed.
