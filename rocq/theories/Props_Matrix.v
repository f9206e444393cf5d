(** * C90: the array-based matrix classes compute what the templates of math_types.h compute *)
From Coq Require Import ZArith List Bool Lia Reals Lra Floats.SpecFloat.
From Flocq Require Import IEEE754.BinarySingleNaN.
From Verif Require Import Num MathTypes Outcome Matrix Spec P_Tac P_Math Props_Math.
Import ListNotations.

(** same entries, in row order *)
Definition s_vec {T} (a : list T) (v : vec3 T) : Prop := a = [vx v; vy v; vz v].
Definition s_mat {T} (a : list T) (m : mat3 T) : Prop := a = [mxx m; mxy m; mxz m; myx m; myy m; myz m; mzx m; mzy m; mzz m].
Definition s_tr {T} (a : atr T) (t : trans3 T) : Prop := s_vec (a_o a) (MathTypes.tt t) /\ s_mat (a_r a) (tR t).

(** vectors: for every scalar type, the same expressions in the same order, so bit for bit the same results *)
Theorem C90_vector : forall (T : Type) (NT : Num T) a b (v w : vec3 T) f, s_vec a v -> s_vec b w ->
  s_vec (av_add a b) (vadd v w) /\ s_vec (av_sub a b) (vsub v w) /\ s_vec (av_scale a f) (vscale v f) /\ s_vec (av_divs a f) (vdivs v f) /\ s_vec (av_opp a) (vopp v) /\
  s_vec (av_normalize a) (vnormalized v) /\ av_dot a b = vdot v w /\ av_length a = vlength v /\ av_length2 a = vlength2 v.
Proof. intros T NT a b v w f A B. rewrite A, B. repeat split. Qed.
(** matrices and transforms *)
Theorem C90_product : forall (T : Type) (NT : Num T) a b c (m n : mat3 T) v ta tb (s t : trans3 T), s_mat a m -> s_mat b n -> s_vec c v -> s_tr ta s -> s_tr tb t ->
  s_mat (am_mul a b) (m3mul m n) /\ s_vec (am_mulv a c) (m3mulv m v) /\ s_vec (at_apply ta c) (tapply s v) /\ s_tr (at_mul ta tb) (tmul s t) /\
  (forall i, (i < 3)%nat -> exists r, am_row a i = Ret r /\ s_vec r (m3row m i)).
Proof.
  intros T NT a b c m n v [o r] [o' r'] s t A B C [D E] [F G]. cbn [a_o a_r] in D, E, F, G. unfold s_mat, s_vec in A, B, C, D, E, F, G. subst a b c o r o' r'.
  split; [reflexivity|]. split; [reflexivity|]. split; [reflexivity|]. split; [split; reflexivity|].
  intros i I. destruct i as [|[|[|i]]]; [..|lia]; eexists; (split; [reflexivity|reflexivity]).
Qed.
(** setRPY overwrites all nine entries *)
Theorem C90_rpy : forall (T : Type) (NT : Num T) (TR : Trig T) a x y z roll pitch yaw o, length a = 9%nat -> length o = 3%nat ->
  s_mat (arr_rpy a roll pitch yaw) (m3rpy roll pitch yaw) /\ s_tr (at_make a x y z roll pitch yaw) (tmake x y z roll pitch yaw) /\ a_o (at_rpy (ATr o a) roll pitch yaw) = o /\
  s_mat (a_r (at_rpy (ATr o a) roll pitch yaw)) (m3rpy roll pitch yaw).
Proof.
  intros T NT TR a x y z roll pitch yaw o L L'. do 9 (destruct a as [|? a]; [discriminate L|]). destruct a; [|discriminate L]. repeat split.
Qed.
(** a transform made from a matrix and a vector, and the components set one by one *)
Theorem C90_parts : forall (T : Type) (NT : Num T) a c (m : mat3 T) (v : vec3 T) x, s_mat a m -> s_vec c v ->
  s_tr (at_of a c) (T3 m v) /\ (forall i, (i < 3)%nat -> s_vec (av_set c i x) (vset v i x)).
Proof.
  intros T NT a c m v x A C. split; [split; [exact C|exact A]|]. unfold s_vec in *. subst c. intros i I. destruct i as [|[|[|i]]]; [..|lia]; reflexivity.
Qed.
(** a row that does not exist is read outside the array *)
Theorem C90_row_range : forall (T : Type) (a : list T) i, length a = 9%nat -> (am_row a i = UB <-> (3 <= i)%nat).
Proof.
  intros T a i L. do 9 (destruct a as [|? a]; [discriminate L|]). destruct a; [|discriminate L]. destruct i as [|[|[|i]]].
  1-3: split; [discriminate|lia]. split; [lia|intros _]. unfold am_row. replace (S (S (S i)) * 3)%nat with (9 + i * 3)%nat by lia. cbn. destruct (i * 3)%nat; reflexivity.
Qed.

(** ** the inverse: other expressions, same values *)
(** what the two expressions need of the arithmetic *)
Definition s_sign_rules {T} (NT : Num T) : Prop :=
  (forall a b : T, nsub a b = nadd a (nopp b)) /\ (forall a b : T, nopp (nmul a b) = nmul a (nopp b)) /\ (forall a b : T, nmul (nopp a) b = nmul a (nopp b)).
Lemma rules_R : s_sign_rules NumR.
Proof. repeat split; cbn; intros; ring. Qed.
Section RoundSign.
  Context (prec emax : Z) (HP : FLX.Prec_gt_0 prec) (HM : Prec_lt_emax prec emax).
  Lemma round_neg : forall s m e l, SpecFloat.SFopp (binary_round_aux prec emax mode_NE s m e l) = binary_round_aux prec emax mode_NE (negb s) m e l.
  Proof.
    intros s m e l. unfold binary_round_aux. destruct (shr_fexp prec emax m e l) as [mrs e']. cbn [choice_mode].
    destruct (shr_fexp prec emax _ e' SpecFloat.loc_Exact) as [mrs2 e2]. destruct (shr_m mrs2) as [|p|p]; [reflexivity| |reflexivity]. 
    unfold binary_fit_aux. destruct (Zle_bool e2 (emax - prec)); reflexivity.
  Qed.
  Lemma opp_SF : forall x : binary_float prec emax, B2SF (Bopp x) = SpecFloat.SFopp (B2SF x).
  Proof. intros []; reflexivity. Qed.
  Lemma mult_opp_r : forall x y : binary_float prec emax, Bopp (Bmult mode_NE x y) = Bmult mode_NE x (Bopp y).
  Proof.
    intros x y. apply B2SF_inj. rewrite opp_SF. destruct x as [sx|sx| |sx mx ex Hx], y as [sy|sy| |sy my ey Hy]; cbn [Bmult Bopp B2SF SpecFloat.SFopp]; try reflexivity;
      try (rewrite negb_xorb_r; reflexivity).
    rewrite !B2SF_SF2B, round_neg, negb_xorb_r. reflexivity.
  Qed.
  Lemma mult_opp_l : forall x y : binary_float prec emax, Bmult mode_NE (Bopp x) y = Bmult mode_NE x (Bopp y).
  Proof.
    intros x y. apply B2SF_inj. destruct x as [sx|sx| |sx mx ex Hx], y as [sy|sy| |sy my ey Hy]; cbn [Bmult Bopp B2SF]; try reflexivity;
      try (rewrite <- negb_xorb_l, negb_xorb_r; reflexivity).
    rewrite !B2SF_SF2B, <- negb_xorb_l, negb_xorb_r. reflexivity.
  Qed.
  Lemma minus_opp : forall x y : binary_float prec emax, Bminus mode_NE x y = Bplus mode_NE x (Bopp y).
  Proof. intros [] []; reflexivity. Qed.
End RoundSign.
Lemma rules_F : s_sign_rules NumF.
Proof.
  split; [|split]; intros a b.
  - apply minus_opp.
  - apply mult_opp_r.
  - apply mult_opp_l.
Qed.
Lemma inverse_rules : forall (T : Type) (NT : Num T) ta (t : trans3 T), s_sign_rules NT -> s_tr ta t -> s_tr (at_inverse ta) (tinverse t).
Proof.
  intros T NT [o r] t [SB [MO ML]] [A B]. cbn [a_o a_r] in A, B. rewrite A, B. split; [|reflexivity].
  unfold s_vec, at_inverse, tinverse, m3mulv, m3transpose, vopp, at_. cbn. rewrite !SB, !MO, !ML. reflexivity.
Qed.
(** for real numbers and for doubles, including signed zeros, infinities and NaN *)
Theorem C90_inverse : (forall ta (t : trans3 R), s_tr ta t -> s_tr (at_inverse ta) (tinverse t)) /\ (forall ta (t : trans3 F64), s_tr ta t -> s_tr (at_inverse ta) (tinverse t)).
Proof. split; intros ta t H; [exact (inverse_rules R NumR ta t rules_R H)|exact (inverse_rules F64 NumF ta t rules_F H)]. Qed.
(** hence the laws of C01 and C02 for this class (real arithmetic) *)
Theorem C90_laws : forall (a b : atr R) (s t : trans3 R) c (v : vec3 R), s_tr a s -> s_tr b t -> s_vec c v -> rigid s ->
  at_apply (at_mul a b) c = at_apply a (at_apply b c) /\ at_apply (at_inverse a) (at_apply a c) = c /\ at_apply a (at_apply (at_inverse a) c) = c.
Proof.
  intros a b s t c v A B C RG.
  assert (AP : forall (x : atr R) y c v, s_tr x y -> s_vec c v -> s_vec (at_apply x c) (tapply y v)).
  { intros x y c' v' X Y. apply (C90_product R NumR (a_r x) (a_r x) c' (tR y) (tR y) v' x x y y); auto; apply X. }
  assert (MU : s_tr (at_mul a b) (tmul s t)) by (apply (C90_product R NumR (a_r a) (a_r b) c (tR s) (tR t) v a b s t); auto; [apply A|apply B]).
  assert (IV := proj1 C90_inverse a s A).
  split; [|split].
  - rewrite (AP _ _ _ _ MU C), (AP _ _ _ _ A (AP _ _ _ _ B C)), tapply_tmul. reflexivity.
  - rewrite (AP _ _ _ _ IV (AP _ _ _ _ A C)), tinverse_apply by auto. symmetry. exact C.
  - rewrite (AP _ _ _ _ A (AP _ _ _ _ IV C)), tapply_inverse by auto. symmetry. exact C.
Qed.
Example C90_nonvacuous : exists (a : atr R) t, s_tr a t /\ rigid t /\ t <> tidentity /\ (exists m : list R, length m = 9%nat).
Proof.
  exists (ATr [vx (MathTypes.tt ex_tr); vy (MathTypes.tt ex_tr); vz (MathTypes.tt ex_tr)]
    (let m := tR ex_tr in [mxx m; mxy m; mxz m; myx m; myy m; myz m; mzx m; mzy m; mzz m])), ex_tr.
  split; [split; reflexivity|]. split; [apply ex_tr_ok|]. split; [unfold ex_tr, ex_rot; unmath; intros E; injection E; lra|].
  exists [0; 0; 0; 0; 0; 0; 0; 0; 0]%R. reflexivity.
Qed.
Print Assumptions C90_vector.
Print Assumptions C90_product.
Print Assumptions C90_rpy.
Print Assumptions C90_parts.
Print Assumptions C90_row_range.
Print Assumptions C90_inverse.
Print Assumptions C90_laws.
