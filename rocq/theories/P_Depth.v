(** * Depth camera: facts that hold for every scalar type *)
From Coq Require Import ZArith NArith List Bool Lia Reals Lra Permutation.
From Flocq Require Import Core IEEE754.BinarySingleNaN.
From Verif Require Import Num NumOrd MathTypes Outcome Mesh P_Tac Depth.
Import ListNotations.

(** truncation is truncation of the represented number *)
Class NumTrunc (T : Type) {N : Num T} {NO : NumOrd T} := { ntrunc_key : forall a z, ntrunc a = Some z <-> exists r, nkey a = Some (Fin r) /\ z = Ztrunc r }.
#[global] Program Instance NumTruncR : NumTrunc R.
Next Obligation.
  cbn. split.
  - intros H. injection H as <-. eauto.
  - intros [r [E ->]]. injection E as <-. reflexivity.
Qed.
#[global] Program Instance NumTruncF : NumTrunc F64.
Next Obligation.
  cbn [ntrunc NumF nkey NumOrdF]. unfold f64_trunc. destruct (is_finite a) eqn:F.
  - rewrite (fkey_finite a F). pose proof (Btrunc_correct 53 1024 emax64_gt a) as B. cbv zeta in B. split.
    + intros H. apply (f_equal (fun o => match o with Some x => x | None => 0%Z end)) in H. exists (B2R a). split; auto. rewrite <- H. apply eq_IZR. rewrite B. unfold round, F2R, scaled_mantissa, cexp, FIX_exp. cbn. rewrite !Rmult_1_r. reflexivity.
    + intros [r [E ->]]. injection E as <-. f_equal. apply eq_IZR. rewrite B. unfold round, F2R, scaled_mantissa, cexp, FIX_exp. cbn. rewrite !Rmult_1_r. reflexivity.
  - split; [discriminate|]. intros [r [E _]]. exfalso. destruct a as [s|s| |s m e h]; cbn in *; try discriminate. destruct s; discriminate.
Qed.

Section Bounds.
  Context {T : Type} {NT : Num T} {NO : NumOrd T} {NTr : NumTrunc T}.
  Lemma toint_key : forall (a : T) z, toint a = Some z <-> exists r, nkey a = Some (Fin r) /\ z = Ztrunc r /\ (-2147483648 <= z <= 2147483647)%Z.
  Proof.
    intros a z. unfold toint. split.
    - destruct (ntrunc a) as [k|] eqn:E; [|discriminate]. destruct (_ && _)%bool eqn:C; [|discriminate]. intros H. injection H as <-.
      apply ntrunc_key in E as [r [E F]]. exists r. repeat split; auto; apply andb_prop in C as [C1 C2]; lia.
    - intros [r [E [F G]]]. assert (N : ntrunc a = Some z) by (apply ntrunc_key; eauto). rewrite N.
      replace ((-2147483648 <=? z)%Z && (z <=? 2147483647)%Z)%bool with true; auto. symmetry. apply andb_true_iff. lia.
  Qed.
  Lemma n0_key : nkey (n0 : T) = Some (Fin 0).
  Proof. unfold n0. rewrite nofZ_key; [reflexivity|]. cbn. lia. Qed.
  Lemma toint_nonneg : forall (a : T) z, nltb a n0 = false -> toint a = Some z -> (0 <= z)%Z.
  Proof.
    intros a z L H. apply toint_key in H as [r [K [-> _]]]. rewrite <- (Ztrunc_IZR 0). apply Ztrunc_le. apply Rnot_lt_le. intros C.
    assert (nltb a n0 = true); [|congruence]. apply nltb_key. exists (Fin r), (Fin 0). split; auto. split; [apply n0_key|exact C].
  Qed.
  Lemma row_px_in : forall n x y (d dd : T) i p, In p (row_px n x y d dd i) -> px_y p = y /\ (x <= px_x p < x + Z.of_nat n)%Z /\ px_i p = i.
  Proof.
    induction n as [|n IH]; intros x y d dd i p H; [destruct H|]. cbn [row_px] in H. destruct H as [<-|H]; cbn [px_x px_y px_i]; [lia|].
    apply IH in H. lia.
  Qed.
  Lemma row_in : forall w y (xs xe ds de : T) i ps p, row w y xs xe ds de i = Ret ps -> In p ps -> (0 <= px_x p < w)%Z /\ px_y p = y /\ px_i p = i.
  Proof.
    intros w y xs xe ds de i ps p H I. unfold row in H. destruct (nltb xs n0) eqn:L.
    - cbn [obind] in H. destruct (toint xe) as [e|]; [|discriminate]. cbn [or_ub obind] in H. injection H as <-. apply row_px_in in I. lia.
    - destruct (toint xs) as [s|] eqn:S; [|discriminate]. cbn [or_ub obind] in H. destruct (toint xe) as [e|]; [|discriminate]. cbn [or_ub obind] in H. injection H as <-.
      pose proof (toint_nonneg _ _ L S). apply row_px_in in I. lia.
  Qed.
  Lemma rows_in : forall n w y (xs xsd xe xed ds dsd de ded : T) i ps p, rows n w y xs xsd xe xed ds dsd de ded i = Ret ps -> In p ps ->
    (0 <= px_x p < w)%Z /\ (y <= px_y p < y + Z.of_nat n)%Z /\ px_i p = i.
  Proof.
    induction n as [|n IH]; intros w y xs xsd xe xed ds dsd de ded i ps p H I; [cbn in H; injection H as <-; destruct I|]. cbn [rows] in H.
    destruct (row _ _ _ _ _ _ _) as [h| | |] eqn:RW; try discriminate. cbn [obind] in H. destruct (rows n _ _ _ _ _ _ _ _ _ _ _) as [r| | |] eqn:RS; try discriminate. cbn [obind] in H. injection H as <-.
    apply in_app_iff in I as [I|I]; [pose proof (row_in _ _ _ _ _ _ _ _ _ RW I); lia|]. pose proof (IH _ _ _ _ _ _ _ _ _ _ _ _ _ RS I). lia.
  Qed.
  Definition in_image (w h : Z) (p : pixel T) : Prop := (0 <= px_x p < w)%Z /\ (0 <= px_y p < h)%Z.
  Lemma part_in : forall w h ys ye (xs xsd xe xed ds dsd de ded : T) i ps p, drawTrianglePart w h ys ye xs xsd xe xed ds dsd de ded i = Ret ps -> In p ps -> in_image w h p /\ px_i p = i.
  Proof.
    intros w h ys ye xs xsd xe xed ds dsd de ded i ps p H I. unfold drawTrianglePart in H. destruct (Z.ltb_spec ys 0) as [L|L].
    - destruct (ichk _) as [k| | |]; try discriminate. cbn [obind] in H. pose proof (rows_in _ _ _ _ _ _ _ _ _ _ _ _ _ _ H I). unfold in_image. lia.
    - pose proof (rows_in _ _ _ _ _ _ _ _ _ _ _ _ _ _ H I). unfold in_image. lia.
  Qed.
  Ltac ob H := repeat (let E := fresh "E" in match type of H with obind ?x _ = Ret _ => destruct x eqn:E; [cbn [obind] in H|discriminate H|discriminate H|discriminate H] end).
  Lemma tri2d_in : forall cull w h (p1 p2 p3 : vec3 T) i ps p, drawTriangle2D cull w h p1 p2 p3 i = Ret ps -> In p ps -> in_image w h p /\ px_i p = i.
  Proof.
    intros cull w h p1 p2 p3 i ps p H I. unfold drawTriangle2D in H. destruct (_ || _)%bool; [|injection H as <-; destruct I]. ob H.
    destruct (_ && _)%bool; [|injection H as <-; destruct I]. destruct (Z.eqb _ _).
    - destruct (sort3 vx p1 p2 p3) as [[q1 q2] q3]. ob H. apply (part_in _ _ _ _ _ _ _ _ _ _ _ _ _ _ _ H I).
    - destruct (sort3 vy p1 p2 p3) as [[q1 q2] q3]. ob H. match type of H with context [if ?c then (?u, ?v) else (?v, ?u)] => destruct (if c then (u, v) else (v, u)) as [pa pb] end. ob H. injection H as <-.
      apply in_app_iff in I as [I|I]; [apply (part_in _ _ _ _ _ _ _ _ _ _ _ _ _ _ _ E11 I)|apply (part_in _ _ _ _ _ _ _ _ _ _ _ _ _ _ _ E12 I)].
  Qed.
  Lemma draw_all_in : forall c cull w h ts i ps p, @draw_all T NT c cull w h ts i = Ret ps -> In p ps -> in_image w h p /\ px_i p = i.
  Proof.
    intros c cull w h. induction ts as [|[[a b] e] ts IH]; intros i ps p H I; cbn [draw_all] in H; [injection H as <-; destruct I|]. ob H. injection H as <-.
    apply in_app_iff in I as [I|I]; [apply (tri2d_in _ _ _ _ _ _ _ _ _ E I)|eauto].
  Qed.
End Bounds.
