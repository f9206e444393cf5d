(** * Specification of queries with NaN *)
From Coq Require Import List NArith.
From Flocq Require Import BinarySingleNaN.
From Verif Require Import Num MathTypes Spec.
Import ListNotations.

(** some coordinate of the point is NaN *)
Definition s_some_nan (v : vec3 F64) : Prop := is_nan (vx v) = true \/ is_nan (vy v) = true \/ is_nan (vz v) = true.
(** the triangle (i, j, k) has a corner with a NaN coordinate *)
Definition s_nan_tri (pts : list (vec3 F64)) (t : N * N * N) : Prop :=
  let '(i, j, k) := t in exists n v, In n [i; j; k] /\ nth_error pts (N.to_nat n) = Some v /\ s_some_nan v.
(** the second list is the first without some elements that satisfy P *)
Inductive s_without {A} (P : A -> Prop) : list A -> list A -> Prop :=
| wo_nil : s_without P [] []
| wo_keep : forall x l l', s_without P l l' -> s_without P (x :: l) (x :: l')
| wo_drop : forall x l l', P x -> s_without P l l' -> s_without P (x :: l) l'.
