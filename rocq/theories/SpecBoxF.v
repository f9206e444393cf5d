(** * Specification of boxes on doubles *)
From Coq Require Import List Reals.
From Flocq Require Import Core BinarySingleNaN.
From Verif Require Import Num MathTypes Box Spec SpecRound.
Import ListNotations.
Local Open Scope R_scope.

(** a pose with finite entries, the matrix at most A and the translation at most N in absolute value; it need not be a rotation *)
Definition s_posed (A N : R) (t : trans3 F64) : Prop :=
  s_finm (tR t) /\ s_finv (MathTypes.tt t) /\ s_boundm A (rm (tR t)) /\ s_bound N (rv (MathTypes.tt t)).
(** the corners are finite, in order and at most M in absolute value *)
Definition s_sane (M : R) (mn mx : vec3 F64) : Prop :=
  s_finv mn /\ s_finv mx /\ s_ordered (rv mn) (rv mx) /\ s_bound M (rv mn) /\ s_bound M (rv mx).
(** the same box in exact numbers *)
Definition s_exact_pose (t : trans3 F64) : trans3 R := T3 (rm (tR t)) (rv (MathTypes.tt t)).
(** the error of moving a point with coordinates up to M by such a pose *)
Definition s_step (A M N : R) : R := 13 * uro * (A * M) + uro * N + 7 * eta.
(** a history of constructions and enclose calls on doubles in which no coordinate exceeds M, next to the same history in exact
    numbers; E bounds how far the two drift apart *)
Inductive s_twin (A M N : R) : R -> box F64 -> box R -> Prop :=
| tw_make : forall mn mx, s_sane M mn mx -> s_twin A M N 0 (box_make mn mx) (box_make (rv mn) (rv mx))
| tw_enclose : forall E E' b o b' o' pose, s_twin A M N E b b' -> s_twin A M N E' o o' -> s_posed A N pose ->
    s_bound M (rv (b_min (box_enclose b o pose))) -> s_bound M (rv (b_max (box_enclose b o pose))) ->
    s_twin A M N (Rmax E (3 * A * E' + s_step A M N)) (box_enclose b o pose) (box_enclose b' o' (s_exact_pose pose)).
