(** * Specification of balls against edges of meshes on doubles *)
From Coq Require Import Reals.
From Verif Require Import Num MathTypes Spec SpecRound.
Local Open Scope R_scope.

(** ab is one of the three edges of the triangle with corners v1, v2, v3, in the triangle's order *)
Definition s_edge {T} (v1 v2 v3 a b : vec3 T) : Prop := (a = v1 /\ b = v2) \/ (a = v2 /\ b = v3) \/ (a = v3 /\ b = v1).
(** what rounding can add to a squared distance between points with coordinates up to M, compared with a squared radius *)
Definition s_slack (M r : R) : R := 1000 * (uro * (M * M + r * r)).
