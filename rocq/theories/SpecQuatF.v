(** * Specification: quaternions read from matrices of doubles *)
From Coq Require Import ZArith Reals.
From Flocq Require Import Core BinarySingleNaN.
From Verif Require Import Num MathTypes Spec SpecRound.
Local Open Scope R_scope.

(** all components differ by at most e *)
Definition s_closeq (e : R) (a b : quat R) : Prop :=
  Rabs (qx a - qx b) <= e /\ Rabs (qy a - qy b) <= e /\ Rabs (qz a - qz b) <= e /\ Rabs (qw a - qw b) <= e.
(** the exact unit quaternion along q *)
Definition s_unitq (q : quat R) : quat R := let n := sqrt (q_norm2 q) in Q (qx q / n) (qy q / n) (qz q / n) (qw q / n).
(** doing something n times *)
Fixpoint s_times {A : Type} (n : nat) (f : A -> A) (a : A) : A := match n with O => a | S k => f (s_times k f a) end.
