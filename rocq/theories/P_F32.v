(** * Conversion of a double to float: the correctly rounded value *)
From Coq Require Import ZArith Reals Lra Lia.
From Flocq Require Import Core BinarySingleNaN Relative.
From Verif Require Import Num.
Local Open Scope R_scope.

Definition rnd32 (x : R) : R := round radix2 (FLT_exp (-149) 24) ZnearestE x.
Lemma f64_to_f32_spec : forall x : F64, is_finite x = true -> Rabs (rnd32 (B2R x)) < bpow radix2 128 ->
  is_finite (f64_to_f32 x) = true /\ B2R (f64_to_f32 x) = rnd32 (B2R x).
Proof.
  intros [s|s| |s m e H] F B; try discriminate F.
  - split; auto. cbn [B2R f64_to_f32]. unfold rnd32. rewrite round_0; auto with typeclass_instances.
  - unfold f64_to_f32. pose proof (binary_normalize_correct 24 128 prec32_gt0 emax32_gt mode_NE (cond_Zopp s (Zpos m)) e s) as C.
    cbv zeta in C. change (F2R (Float radix2 (cond_Zopp s (Zpos m)) e)) with (B2R (B754_finite s m e H)) in C.
    change (round radix2 (SpecFloat.fexp 24 128) (round_mode mode_NE) (B2R (B754_finite s m e H))) with (rnd32 (B2R (B754_finite s m e H))) in C.
    rewrite Rlt_bool_true in C by exact B. destruct C as [C [D _]]. auto.
Qed.
Lemma f32_to_f64_spec : forall x : F32, is_finite x = true -> is_finite (f32_to_f64 x) = true /\ B2R (f32_to_f64 x) = B2R x.
Proof.
  intros [s|s| |s m e H] F; try discriminate F; auto.
  unfold f32_to_f64. pose proof (binary_normalize_correct 53 1024 prec64_gt0 emax64_gt mode_NE (cond_Zopp s (Zpos m)) e s) as C.
  cbv zeta in C. change (F2R (Float radix2 (cond_Zopp s (Zpos m)) e)) with (B2R (B754_finite s m e H)) in C.
  assert (G : generic_format radix2 (SpecFloat.fexp 53 1024) (B2R (B754_finite s m e H))).
  { apply (generic_inclusion_mag radix2 (SpecFloat.fexp 24 128)); [|apply generic_format_B2R].
    intros _. unfold SpecFloat.fexp, SpecFloat.emin. lia. }
  rewrite round_generic in C; auto with typeclass_instances.
  rewrite Rlt_bool_true in C.
  2:{ apply Rlt_trans with (bpow radix2 128); [apply abs_B2R_lt_emax|apply bpow_lt; lia]. }
  destruct C as [C [D _]]. auto.
Qed.
Lemma nf32_spec : forall x : F64, is_finite x = true -> Rabs (rnd32 (B2R x)) < bpow radix2 128 ->
  is_finite (nf32 x) = true /\ B2R (nf32 x) = rnd32 (B2R x).
Proof.
  intros x F B. destruct (f64_to_f32_spec x F B) as [C D]. destruct (f32_to_f64_spec _ C) as [E G].
  cbn [nf32 NumF]. rewrite G, D. auto.
Qed.
Lemma rnd32_small : forall x k, (k <= 127)%Z -> (-149 <= k)%Z -> Rabs x <= bpow radix2 k -> Rabs (rnd32 x) <= bpow radix2 k.
Proof.
  intros x k K L H. pose proof prec32_gt0 as P. apply abs_round_le_generic; auto with typeclass_instances. apply generic_format_bpow. unfold FLT_exp. lia.
Qed.
(** within half a unit in the last place: relative 2^-24 or absolute 2^-150 *)
Lemma nf32_error : forall x : F64, is_finite x = true -> Rabs (B2R x) <= bpow radix2 127 ->
  is_finite (nf32 x) = true /\ Rabs (B2R (nf32 x) - B2R x) <= Rabs (B2R x) * bpow radix2 (-24) + bpow radix2 (-150).
Proof.
  intros x F B. destruct (nf32_spec x F) as [C D].
  { apply Rle_lt_trans with (bpow radix2 127); [apply rnd32_small; auto; lia|apply bpow_lt; lia]. }
  split; auto. rewrite D. unfold rnd32.
  destruct (error_N_FLT radix2 (-149) 24 ltac:(lia) (fun n => negb (Z.even n)) (B2R x)) as [e [h [E [H [_ Q]]]]].
  rewrite Q. replace (B2R x * (1 + e) + h - B2R x) with (B2R x * e + h) by ring.
  eapply Rle_trans; [apply Rabs_triang|]. rewrite Rabs_mult. apply Rplus_le_compat.
  - apply Rmult_le_compat_l; [apply Rabs_pos|]. eapply Rle_trans; [exact E|].
    right. unfold u_ro. replace (/ 2) with (bpow radix2 (-1)) by (cbn; lra). rewrite <- bpow_plus. reflexivity.
  - eapply Rle_trans; [exact H|]. right. replace (/ 2) with (bpow radix2 (-1)) by (cbn; lra). rewrite <- bpow_plus. reflexivity.
Qed.

(** a computable bound, for examples *)
Lemma bound127 : forall x : F64,
  match x with B754_finite s m e _ => (Z.leb (Zpos m) (2 ^ 53) && Z.leb e 74)%bool | _ => false end = true ->
  Rabs (B2R x) <= bpow radix2 127.
Proof.
  intros [s|s| |s m e H] C; try discriminate C. apply andb_prop in C. destruct C as [A B].
  apply Z.leb_le in A. apply Z.leb_le in B. cbn [B2R]. rewrite <- F2R_Zabs, abs_cond_Zopp. unfold F2R. cbn [Fnum Fexp].
  replace 127%Z with (53 + 74)%Z by reflexivity. rewrite bpow_plus. apply Rmult_le_compat; try apply bpow_ge_0.
  - apply IZR_le. lia.
  - change (bpow radix2 53) with (IZR (2 ^ 53)). apply IZR_le. exact A.
  - apply bpow_le. exact B.
Qed.
