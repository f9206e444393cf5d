(** * Depth camera over the reals: scan lines *)
From Coq Require Import ZArith NArith List Bool Lia Reals Lra.
From Flocq Require Import Core.Raux.
From Verif Require Import Num NumOrd MathTypes Outcome Mesh Spec P_Tac P_Math P_MeshGeo Depth P_Depth P_Depth3.
Import ListNotations.
Local Open Scope R_scope.

Ltac unF := unfold fadd, fsub, fmul, fdiv, fofZ in *; cbn [nf32 NumR] in *; unR.
Definition castable (x : R) : Prop := (-2147483648 <= Ztrunc x <= 2147483647)%Z.
Lemma cast_R : forall x, castable x -> toint x = Some (Ztrunc x).
Proof. intros x H. apply toint_key. exists x. auto. Qed.
Lemma cast_inv : forall x z, toint x = Some z -> castable x /\ z = Ztrunc x.
Proof. intros x z H. apply toint_key in H as [r [K [-> H]]]. cbn in K. injection K as <-. auto. Qed.
Lemma cast_between : forall a b x, castable a -> castable b -> a <= x <= b -> castable x.
Proof. unfold castable. intros a b x A B [X Y]. apply Ztrunc_le in X. apply Ztrunc_le in Y. lia. Qed.
(** where the interpolation of a scan line is anchored *)
Definition anchor (xs : R) : R := if Rlt_dec xs 0 then xs else IZR (Ztrunc xs).
Definition rowpx (w y : Z) (xs xe ds de : R) (i : Z) (p : pixel R) : Prop :=
  exists x : Z, (0 <= x < w)%Z /\ (Ztrunc xs <= x <= Ztrunc xe)%Z /\ p = Pixel x y (1 / (ds + (IZR x - anchor xs) * ((de - ds) / (xe - xs)))) i.
Lemma row_px_R : forall n x y (d dd : R) i p, In p (row_px n x y d dd i) <-> exists k : Z, (0 <= k < Z.of_nat n)%Z /\ p = Pixel (x + k) y (1 / (d + IZR k * dd)) i.
Proof.
  induction n as [|n IH]; intros x y d dd i p; cbn [row_px In].
  - split; [intros []|intros [k [K _]]; lia].
  - rewrite IH. unF. split.
    + intros [<-|[k [K ->]]].
      * exists 0%Z. split; [lia|]. rewrite Z.add_0_r. f_equal. f_equal. ring.
      * exists (k + 1)%Z. split; [lia|]. replace (x + (k + 1))%Z with (x + 1 + k)%Z by ring. f_equal. rewrite plus_IZR. f_equal. ring.
    + intros [k [K ->]]. destruct (Z.eq_dec k 0) as [->|D].
      * left. rewrite Z.add_0_r. f_equal. f_equal. ring.
      * right. exists (k - 1)%Z. split; [lia|]. replace (x + 1 + (k - 1))%Z with (x + k)%Z by ring. f_equal. rewrite minus_IZR. f_equal. ring.
Qed.
Lemma row_R : forall w y xs xe ds de i, (xs < 0 \/ castable xs) -> castable xe -> exists ps, row w y xs xe ds de i = Ret ps /\ forall p, In p ps <-> rowpx w y xs xe ds de i p.
Proof.
  intros w y xs xe ds de i CS CE. unfold row. unF. rewrite (cast_R xe CE). unfold rowpx, anchor. destruct (Rltb xs 0) eqn:L.
  - apply Rltb_true in L. cbn [obind or_ub]. eexists. split; [reflexivity|]. intros p. rewrite row_px_R. destruct (Rlt_dec xs 0); [|contradiction].
    assert (T0 : (Ztrunc xs <= 0)%Z) by (rewrite <- (Ztrunc_IZR 0); apply Ztrunc_le; lra).
    split; intros [k [K E]].
    + exists k. rewrite Z.add_0_l in E. split; [lia|]. split; [lia|]. rewrite E. f_equal. f_equal. ring.
    + destruct E as [K2 E]. exists k. split; [lia|]. rewrite E, Z.add_0_l. f_equal. f_equal. ring.
  - apply Rltb_false in L. destruct CS as [CS|CS]; [lra|]. rewrite (cast_R xs CS). cbn [obind or_ub]. eexists. split; [reflexivity|]. intros p. rewrite row_px_R. destruct (Rlt_dec xs 0); [lra|].
    assert (T0 : (0 <= Ztrunc xs)%Z) by (rewrite <- (Ztrunc_IZR 0); apply Ztrunc_le; lra).
    split; intros [k [K E]].
    + exists (Ztrunc xs + k)%Z. split; [lia|]. split; [lia|]. rewrite E. f_equal. rewrite plus_IZR. f_equal. ring.
    + destruct E as [K2 E]. exists (k - Ztrunc xs)%Z. split; [lia|]. rewrite E. f_equal; [lia|]. rewrite minus_IZR. reflexivity.
Qed.
Lemma rows_R : forall n w y xs xsd xe xed ds dsd de ded i,
  (forall k : Z, (0 <= k < Z.of_nat n)%Z -> (xs + IZR k * xsd < 0 \/ castable (xs + IZR k * xsd)) /\ castable (xe + IZR k * xed)) ->
  exists ps, rows n w y xs xsd xe xed ds dsd de ded i = Ret ps /\
    forall p, In p ps <-> exists k : Z, (0 <= k < Z.of_nat n)%Z /\ rowpx w (y + k) (xs + IZR k * xsd) (xe + IZR k * xed) (ds + IZR k * dsd) (de + IZR k * ded) i p.
Proof.
  induction n as [|n IH]; intros w y xs xsd xe xed ds dsd de ded i C.
  - exists []. split; [reflexivity|]. intros p. split; [intros []|intros [k [K _]]; lia].
  - cbn [rows]. destruct (C 0%Z) as [C1 C2]; [lia|]. rewrite !Rmult_0_l, !Rplus_0_r in C1, C2.
    destruct (row_R w y xs xe ds de i C1 C2) as [h [-> H]]. cbn [obind]. unF.
    destruct (IH w (y + 1)%Z (xs + xsd) xsd (xe + xed) xed (ds + dsd) dsd (de + ded) ded i) as [r [-> R1]].
    { intros k K. destruct (C (k + 1)%Z) as [D1 D2]; [lia|]. rewrite plus_IZR in D1, D2. replace (xs + xsd + IZR k * xsd) with (xs + (IZR k + 1) * xsd) by ring. replace (xe + xed + IZR k * xed) with (xe + (IZR k + 1) * xed) by ring. auto. }
    cbn [obind]. eexists. split; [reflexivity|]. intros p. rewrite in_app_iff, H, R1.
    assert (SH : forall (u v : R) (k : Z), u + v + IZR k * v = u + IZR (k + 1) * v) by (intros; rewrite plus_IZR; ring).
    split.
    + intros [G|[k [K G]]].
      * exists 0%Z. split; [lia|]. rewrite !Rmult_0_l, !Rplus_0_r, Z.add_0_r. exact G.
      * exists (k + 1)%Z. split; [lia|]. rewrite !SH in G. replace (y + (k + 1))%Z with (y + 1 + k)%Z by ring. exact G.
    + intros [k [K G]]. destruct (Z.eq_dec k 0) as [->|D].
      * left. rewrite !Rmult_0_l, !Rplus_0_r, Z.add_0_r in G. exact G.
      * right. exists (k - 1)%Z. split; [lia|]. rewrite !SH. replace (k - 1 + 1)%Z with k by ring. replace (y + 1 + (k - 1))%Z with (y + k)%Z by ring. exact G.
Qed.
Lemma part_R : forall w h ys ye xs xsd xe xed ds dsd de ded i, (-2147483648 < ys)%Z ->
  (forall y : Z, (ys <= y <= ye)%Z -> (0 <= y < h)%Z -> (xs + IZR (y - ys) * xsd < 0 \/ castable (xs + IZR (y - ys) * xsd)) /\ castable (xe + IZR (y - ys) * xed)) ->
  exists ps, drawTrianglePart w h ys ye xs xsd xe xed ds dsd de ded i = Ret ps /\
    forall p, In p ps <-> exists y : Z, (ys <= y <= ye)%Z /\ (0 <= y < h)%Z /\
      rowpx w y (xs + IZR (y - ys) * xsd) (xe + IZR (y - ys) * xed) (ds + IZR (y - ys) * dsd) (de + IZR (y - ys) * ded) i p.
Proof.
  intros w h ys ye xs xsd xe xed ds dsd de ded i Y C. unfold drawTrianglePart. destruct (Z.ltb_spec ys 0) as [L|L].
  - (* the rows above the image are skipped *)
    unfold ichk. destruct (Z.leb_spec (-2147483648) (- ys)); [|lia].
    destruct (Z.leb_spec (- ys) 2147483647); [|lia]. cbn [andb obind]. unF.
    assert (SH : forall (u v : R) (k : Z), u + v * IZR (- ys) + IZR k * v = u + IZR (k - ys) * v) by (intros; rewrite minus_IZR, opp_IZR; ring).
    destruct (rows_R (Z.to_nat (Z.min (h - 1) ye + 1)) w 0 (xs + xsd * IZR (- ys)) xsd (xe + xed * IZR (- ys)) xed (ds + dsd * IZR (- ys)) dsd (de + ded * IZR (- ys)) ded i) as [ps [E P]].
    { intros k K. rewrite !SH. apply C; lia. }
    exists ps. split; auto. intros p. rewrite P. split; intros [k K].
    + destruct K as [K G]. rewrite !SH, Z.add_0_l in G. exists k. split; [lia|]. split; [lia|]. exact G.
    + destruct K as [K1 [K2 G]]. exists k. split; [lia|]. rewrite !SH, Z.add_0_l. exact G.
  - destruct (rows_R (Z.to_nat (Z.min (h - 1) ye - ys + 1)) w ys xs xsd xe xed ds dsd de ded i) as [ps [E P]].
    { intros k K. replace k with (ys + k - ys)%Z by ring. apply C; lia. }
    exists ps. split; auto. intros p. rewrite P. split; intros [k K].
    + destruct K as [K G]. exists (ys + k)%Z. split; [lia|]. split; [lia|]. replace (ys + k - ys)%Z with k by ring. exact G.
    + destruct K as [K1 [K2 G]]. exists (k - ys)%Z. split; [lia|]. replace (ys + (k - ys))%Z with k by ring. exact G.
Qed.
