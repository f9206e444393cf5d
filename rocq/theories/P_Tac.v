(** Tactics to expose the real instance of the model. *)
From Coq Require Import Reals ZArith Lra Lia Bool.
From Verif Require Import Num MathTypes.
Local Open Scope R_scope.

Ltac unR := unfold n0, n1, n2, nlit, nmin, nmax in *;
  cbn [nadd nsub nmul ndiv nopp nabs nsqrt nltb nleb neqb nofZ nf32 ntrunc NumR
       nsin ncos natan2 npi TrigR] in *.

Ltac dvec := repeat match goal with
  | v : vec3 _ |- _ => destruct v
  | v : vec2 _ |- _ => destruct v
  | v : mat3 _ |- _ => destruct v
  | v : mat2 _ |- _ => destruct v
  | v : quat _ |- _ => destruct v
  | v : trans3 _ |- _ => destruct v
  | v : trans2 _ |- _ => destruct v
  end.

Ltac fields := cbn [vx vy vz v2x v2y m2xx m2xy m2yx m2yy qx qy qz qw
  mxx mxy mxz myx myy myz mzx mzy mzz tR tt t2R t2t] in *.

Lemma Rltb_true : forall x y, Rltb x y = true <-> x < y.
Proof. intros. unfold Rltb. destruct (Rlt_dec x y); split; intros; auto; try discriminate; lra. Qed.
Lemma Rltb_false : forall x y, Rltb x y = false <-> y <= x.
Proof. intros. unfold Rltb. destruct (Rlt_dec x y); split; intros; auto; try discriminate; lra. Qed.
Lemma Rleb_true : forall x y, Rleb x y = true <-> x <= y.
Proof. intros. unfold Rleb. destruct (Rle_dec x y); split; intros; auto; try discriminate; lra. Qed.
Lemma Rleb_false : forall x y, Rleb x y = false <-> y < x.
Proof. intros. unfold Rleb. destruct (Rle_dec x y); split; intros; auto; try discriminate; lra. Qed.
Lemma Reqb_true : forall x y, Reqb x y = true <-> x = y.
Proof. intros. unfold Reqb. destruct (Req_EM_T x y); split; intros; auto; try discriminate; lra. Qed.
Lemma Reqb_false : forall x y, Reqb x y = false <-> x <> y.
Proof. intros. unfold Reqb. destruct (Req_EM_T x y); split; intros; auto; try discriminate; try tauto; congruence. Qed.

(** case split on the first real comparison found in the goal *)
Ltac rcase := match goal with
  | |- context [Rltb ?x ?y] => let H := fresh "Hc" in destruct (Rltb x y) eqn:H;
      [apply Rltb_true in H | apply Rltb_false in H]
  | |- context [Rleb ?x ?y] => let H := fresh "Hc" in destruct (Rleb x y) eqn:H;
      [apply Rleb_true in H | apply Rleb_false in H]
  | |- context [Reqb ?x ?y] => let H := fresh "Hc" in destruct (Reqb x y) eqn:H;
      [apply Reqb_true in H | apply Reqb_false in H]
  end.
Ltac rboolH := repeat match goal with
  | H : Rltb _ _ = true |- _ => apply Rltb_true in H
  | H : Rltb _ _ = false |- _ => apply Rltb_false in H
  | H : Rleb _ _ = true |- _ => apply Rleb_true in H
  | H : Rleb _ _ = false |- _ => apply Rleb_false in H
  | H : Reqb _ _ = true |- _ => apply Reqb_true in H
  | H : Reqb _ _ = false |- _ => apply Reqb_false in H
  | H : (_ && _)%bool = true |- _ => apply andb_prop in H; destruct H
  end.

Lemma V3_eq : forall (a b c a' b' c' : R), a = a' -> b = b' -> c = c' -> V3 a b c = V3 a' b' c'.
Proof. intros; subst; reflexivity. Qed.
Lemma V2_eq : forall (a b a' b' : R), a = a' -> b = b' -> V2 a b = V2 a' b'.
Proof. intros; subst; reflexivity. Qed.
