(** * Order laws shared by the reals and by IEEE doubles

    Every number is mapped to an extended real ([None] for NaN); the three comparison
    operators are exactly the comparisons of these images.  Properties that only depend on
    comparisons are proved from this interface, hence for every double including NaN,
    infinities and signed zeros, and for the reals. *)
From Coq Require Import ZArith Reals Bool Lia Lra.
From Flocq Require Import Core.
From Flocq Require Import IEEE754.BinarySingleNaN.
From Verif Require Import Num P_Tac.
Local Open Scope R_scope.

Inductive ext := MInf | Fin (r : R) | PInf.
Definition ext_lt (a b : ext) : Prop :=
  match a, b with
  | MInf, MInf => False | MInf, _ => True
  | Fin x, Fin y => x < y
  | Fin _, PInf => True
  | _, _ => False
  end.
Definition ext_le (a b : ext) : Prop := ext_lt a b \/ a = b.

Class NumOrd (T : Type) {N : Num T} := {
  nkey : T -> option ext;
  nltb_key : forall a b, nltb a b = true <-> exists x y, nkey a = Some x /\ nkey b = Some y /\ ext_lt x y;
  nleb_key : forall a b, nleb a b = true <-> exists x y, nkey a = Some x /\ nkey b = Some y /\ ext_le x y;
  neqb_key : forall a b, neqb a b = true <-> exists x, nkey a = Some x /\ nkey b = Some x;
  nofZ_key : forall z, (Z.abs z <= 2 ^ 53)%Z -> nkey (nofZ z) = Some (Fin (IZR z))
}.

#[global] Program Instance NumOrdR : NumOrd R := { nkey := fun r => Some (Fin r) }.
Next Obligation.
  cbn [nltb NumR]. rewrite Rltb_true. split.
  - intros. exists (Fin a), (Fin b). auto.
  - intros [x [y [E1 [E2 L]]]]. injection E1 as <-. injection E2 as <-. exact L.
Qed.
Next Obligation.
  cbn [nleb NumR]. rewrite Rleb_true. split.
  - intros. exists (Fin a), (Fin b). repeat split; auto. unfold ext_le. cbn. destruct H; [left|right; f_equal]; auto.
  - intros [x [y [E1 [E2 L]]]]. injection E1 as <-. injection E2 as <-. destruct L as [L|L]; [left; exact L|].
    injection L as ->. right; reflexivity.
Qed.
Next Obligation.
  cbn [neqb NumR]. rewrite Reqb_true. split.
  - intros ->. eauto.
  - intros [x [E1 E2]]. congruence.
Qed.

Definition fkey (x : F64) : option ext :=
  match x with
  | B754_nan => None
  | B754_infinity true => Some MInf
  | B754_infinity false => Some PInf
  | _ => Some (Fin (B2R x))
  end.

Lemma fkey_finite : forall x : F64, is_finite x = true -> fkey x = Some (Fin (B2R x)).
Proof. destruct x; cbn; congruence. Qed.

Lemma f_cmp_cases : forall x y : F64,
  (is_finite x = true /\ is_finite y = true) \/
  (is_finite x = false \/ is_finite y = false).
Proof. intros. destruct (is_finite x), (is_finite y); auto. Qed.

#[global] Program Instance NumOrdF : NumOrd F64 := { nkey := fkey }.
Next Obligation.
  cbn [nltb NumF]. destruct (f_cmp_cases a b) as [[H1 H2]|H].
  - rewrite Bltb_correct by assumption. rewrite !fkey_finite by assumption. split.
    + intros L. exists (Fin (B2R a)), (Fin (B2R b)). repeat split.
      unfold ext_lt. destruct (Rlt_bool_spec (B2R a) (B2R b)); auto; discriminate.
    + intros [x [y [E1 [E2 L]]]]. injection E1 as <-. injection E2 as <-. apply Rlt_bool_true. exact L.
  - destruct a as [s|[]| |s m e He], b as [s'|[]| |s' m' e' He']; cbn in H; try (destruct H; discriminate);
    cbn; split; intros L; try discriminate;
    try (destruct L as [x [y [E1 [E2 L]]]]; try discriminate; injection E1 as <-; injection E2 as <-; cbn in L; try contradiction; reflexivity);
    try (do 2 eexists; repeat split; cbn; auto; fail);
    try (destruct s; discriminate); try (destruct s'; discriminate).
  all: try (destruct L as [x [y [E1 [E2 L]]]]; discriminate).
Qed.
Next Obligation.
  cbn [nleb NumF]. destruct (f_cmp_cases a b) as [[H1 H2]|H].
  - rewrite Bleb_correct by assumption. rewrite !fkey_finite by assumption. split.
    + intros L. exists (Fin (B2R a)), (Fin (B2R b)). repeat split.
      unfold ext_le, ext_lt. destruct (Rle_bool_spec (B2R a) (B2R b)); try discriminate.
      destruct H; [left|right; f_equal]; auto.
    + intros [x [y [E1 [E2 L]]]]. injection E1 as <-. injection E2 as <-. apply Rle_bool_true.
      destruct L as [L|L]; [left; exact L|]. injection L as ->. apply Rle_refl.
  - destruct a as [s|[]| |s m e He], b as [s'|[]| |s' m' e' He']; cbn in H; try (destruct H; discriminate);
    cbn; split; intros L; try discriminate;
    try (destruct L as [x [y [E1 [E2 L]]]]; try discriminate; injection E1 as <-; injection E2 as <-; cbn in L; 
         try (destruct L as [L|L]; [contradiction|discriminate]); reflexivity);
    try (do 2 eexists; repeat split; unfold ext_le; cbn; auto; fail);
    try (destruct s; discriminate); try (destruct s'; discriminate).
  all: try (destruct L as [x [y [E1 [E2 L]]]]; discriminate).
Qed.
Next Obligation.
  cbn [neqb NumF]. destruct (f_cmp_cases a b) as [[H1 H2]|H].
  - rewrite Beqb_correct by assumption. rewrite !fkey_finite by assumption. split.
    + intros L. exists (Fin (B2R a)). destruct (Req_bool_spec (B2R a) (B2R b)); [|discriminate]. split; congruence.
    + intros [x [E1 E2]]. apply Req_bool_true. congruence.
  - destruct a as [s|[]| |s m e He], b as [s'|[]| |s' m' e' He']; cbn in H; try (destruct H; discriminate);
    cbn; split; intros L; try discriminate;
    try (destruct L as [x [E1 E2]]; congruence);
    try (eexists; split; reflexivity);
    try (destruct s; discriminate); try (destruct s'; discriminate).
Qed.
Next Obligation.
  cbn [nofZ NumF]. change (Z.pow_pos 2 53) with (2^53)%Z in H.
  pose proof (binary_normalize_correct 53 1024 prec64_gt0 emax64_gt mode_NE z 0 false) as C.
  assert (G : generic_format radix2 (SpecFloat.fexp 53 1024) (F2R (Float radix2 z 0))).
  { replace (F2R (Float radix2 z 0)) with (F2R (Float radix2 z 0)) by reflexivity.
    destruct (Z.eq_dec z 0) as [->|NZ].
    - rewrite F2R_0. apply generic_format_0.
    - destruct (Z.eq_dec (Z.abs z) (2^53)) as [E|NE].
      + assert (Hz : (z = 2^53 \/ z = - 2^53)%Z) by lia.
        assert (P : generic_format radix2 (SpecFloat.fexp 53 1024) (bpow radix2 53)).
        { apply generic_format_bpow. unfold SpecFloat.fexp, SpecFloat.emin. lia. }
        replace (bpow radix2 53) with (IZR (2^53)) in P by reflexivity.
        unfold F2R. cbn [Fnum Fexp bpow]. rewrite Rmult_1_r. destruct Hz as [-> | ->]; auto.
        rewrite opp_IZR. apply generic_format_opp. exact P.
      + apply generic_format_F2R. intros _. unfold cexp, SpecFloat.fexp, SpecFloat.emin.
        assert (mag radix2 (F2R (Float radix2 z 0)) <= 53)%Z; [|lia].
        apply mag_le_bpow.
        * apply F2R_neq_0. exact NZ.
        * unfold F2R. cbn [Fnum Fexp bpow]. rewrite Rmult_1_r, <- abs_IZR.
          replace (bpow radix2 53) with (IZR (2^53)) by reflexivity. apply IZR_lt. change (Z.pow_pos radix2 53) with (2^53)%Z. lia. }
  cbv zeta in C.
  rewrite round_generic in C by (auto with typeclass_instances).
  assert (V : F2R (Float radix2 z 0) = IZR z) by (unfold F2R; cbn; ring). rewrite V in C.
  rewrite Rlt_bool_true in C.
  - destruct C as [C1 [C2 _]]. fold (f64_of_Z z) in C1, C2. rewrite fkey_finite by exact C2. do 2 f_equal. exact C1.
  - rewrite <- abs_IZR. apply Rle_lt_trans with (IZR (2^53)). apply IZR_le; lia.
    replace (IZR (2^53)) with (bpow radix2 53) by reflexivity. apply bpow_lt. lia.
Qed.

(** ** Consequences used throughout *)
Lemma ext_lt_trans : forall a b c, ext_lt a b -> ext_lt b c -> ext_lt a c.
Proof. destruct a, b, c; cbn; try tauto; lra. Qed.
Lemma ext_lt_irrefl : forall a, ~ ext_lt a a.
Proof. destruct a; cbn; try tauto; lra. Qed.
Lemma ext_total : forall a b, ext_lt a b \/ a = b \/ ext_lt b a.
Proof.
  destruct a as [|x|], b as [|y|]; cbn; auto. destruct (Rtotal_order x y) as [|[|]]; subst; auto.
Qed.
Lemma ext_le_trans : forall a b c, ext_le a b -> ext_le b c -> ext_le a c.
Proof. unfold ext_le. intros a b c [?|?] [?|?]; subst; auto. left; eapply ext_lt_trans; eauto. Qed.
Lemma ext_le_not_lt : forall a b, ext_le a b <-> ~ ext_lt b a.
Proof.
  unfold ext_le. intros. split.
  - intros [H|H] G; [apply (ext_lt_irrefl a); eapply ext_lt_trans; eauto | subst; eapply ext_lt_irrefl; eauto].
  - intros H. destruct (ext_total a b) as [|[|]]; auto; contradiction.
Qed.
Lemma ext_lt_le_trans : forall a b c, ext_lt a b -> ext_le b c -> ext_lt a c.
Proof. unfold ext_le. intros a b c H [G|G]; subst; auto. eapply ext_lt_trans; eauto. Qed.
Lemma ext_le_lt_trans : forall a b c, ext_le a b -> ext_lt b c -> ext_lt a c.
Proof. unfold ext_le. intros a b c [G|G] H; subst; auto. eapply ext_lt_trans; eauto. Qed.

Section Laws.
  Context {T : Type} {N : Num T} {O : NumOrd T}.

  Definition is_num (a : T) : Prop := nkey a <> None.

  Lemma nlt_trans : forall a b c : T, nltb a b = true -> nltb b c = true -> nltb a c = true.
  Proof.
    intros a b c H G. rewrite nltb_key in *. destruct H as [x [y [E1 [E2 L]]]], G as [y' [z [E3 [E4 L']]]].
    exists x, z. repeat split; auto. rewrite E2 in E3. injection E3 as <-. eapply ext_lt_trans; eauto.
  Qed.
  Lemma nlt_irrefl : forall a : T, nltb a a = false.
  Proof.
    intros. destruct (nltb a a) eqn:E; auto. rewrite nltb_key in E. destruct E as [x [y [E1 [E2 L]]]].
    rewrite E1 in E2. injection E2 as <-. destruct (ext_lt_irrefl _ L).
  Qed.
  Lemma nlt_neq : forall a b : T, nltb a b = true -> neqb b a = false.
  Proof.
    intros a b H. destruct (neqb b a) eqn:E; auto. rewrite nltb_key in H. rewrite neqb_key in E.
    destruct H as [x [y [E1 [E2 L]]]], E as [z [E3 E4]]. rewrite E1 in E4. rewrite E2 in E3.
    injection E3 as ->. injection E4 as ->. destruct (ext_lt_irrefl _ L).
  Qed.
  Lemma neqb_refl_num : forall a : T, is_num a -> neqb a a = true.
  Proof. intros a H. rewrite neqb_key. unfold is_num in H. destruct (nkey a); [eauto|congruence]. Qed.
  Lemma nofZ_num : forall z, (Z.abs z <= 2^53)%Z -> is_num (nofZ z : T).
  Proof. intros z H. unfold is_num. rewrite nofZ_key by exact H. discriminate. Qed.
  Lemma n0_eq : neqb (n0 : T) n0 = true.
  Proof. apply neqb_refl_num, nofZ_num. cbn; lia. Qed.
End Laws.
