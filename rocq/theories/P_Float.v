(** Equality of doubles as a boolean, for computed witnesses *)
From Coq Require Import ZArith Bool Reals.
From Flocq Require Import Core IEEE754.BinarySingleNaN.
From Verif Require Import Num.

Definition feqb (x y : F64) : bool :=
  match x, y with
  | B754_zero s, B754_zero s' => Bool.eqb s s'
  | B754_infinity s, B754_infinity s' => Bool.eqb s s'
  | B754_nan, B754_nan => true
  | B754_finite s m e _, B754_finite s' m' e' _ => Bool.eqb s s' && Pos.eqb m m' && Z.eqb e e'
  | _, _ => false
  end.
Lemma feqb_eq : forall x y, feqb x y = true -> x = y.
Proof.
  intros x y H. apply B2SF_inj. destruct x, y; cbn in H |- *; try discriminate; auto.
  - apply eqb_prop in H. congruence.
  - apply eqb_prop in H. congruence.
  - apply andb_prop in H. destruct H as [H H3]. apply andb_prop in H. destruct H as [H1 H2].
    apply eqb_prop in H1. apply Pos.eqb_eq in H2. apply Z.eqb_eq in H3. congruence.
Qed.

(** computed witnesses: lemmas that split a boolean check without normalising the values *)
From Coq Require Import List.
Import ListNotations.
From Verif Require Import Outcome.
Definition single {A} (l : list A) (k : A -> bool) : bool := match l with [c] => k c | _ => false end.
Lemma single_ex : forall A (l : list A) k, single l k = true -> exists c, l = [c] /\ k c = true.
Proof. intros A [|c [|c' l]] k H; try discriminate. eauto. Qed.
Lemma negb_f : forall b, negb b = true -> b = false.
Proof. intros []; auto. Qed.
Definition hit_chk {A} (p : bool * A) (k : A -> bool) : bool := let (h, y) := p in h && k y.
Lemma hit_ex : forall A (p : bool * A) k, hit_chk p k = true -> exists y, p = (true, y) /\ k y = true.
Proof. intros A [h y] k H. apply andb_prop in H. destruct H as [-> H]. eauto. Qed.
Definition fst_ret {A B} (x : outcome (A * B)) : option A := match x with Ret (a, _) => Some a | _ => None end.
Definition some_chk {A} (x : option A) (k : A -> bool) : bool := match x with Some a => k a | None => false end.
Lemma some_ex : forall A (x : option A) k, some_chk x k = true -> exists a, x = Some a /\ k a = true.
Proof. intros A [a|] k H; [eauto|discriminate]. Qed.
