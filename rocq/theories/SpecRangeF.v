(** * Specification of the maximum range of a laser on doubles *)
From Coq Require Import Reals.
From Verif Require Import Num MathTypes Spec SpecLaser.
Local Open Scope R_scope.

(** D is the least squared distance from the sensor to a point of the segment pq *)
Definition s_near2 (p q : vec2 R) (D : R) : Prop :=
  (exists t, 0 <= t <= 1 /\ D = s_len2 (s_along p q t)) /\ forall t, 0 <= t <= 1 -> D <= s_len2 (s_along p q t).
