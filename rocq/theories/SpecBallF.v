(** * Specification of the ball test of an axis-aligned box on doubles *)
From Coq Require Import Reals.
From Verif Require Import Num MathTypes Spec SpecRound.
Local Open Scope R_scope.

(** some point of the box has squared distance at most d2 to p *)
Definition s_box_reaches (lo hi p : vec3 R) (d2 : R) : Prop := exists q, s_in_box lo hi q /\ s_norm2 (s_diff p q) <= d2.
(** along this axis the box is not so thin that its rounded centre may fall on its upper face, or it has no extent at all, or p is not on that face *)
Definition s_axis_ok (lo hi x : R) : Prop := 8 * uro * (Rabs lo + Rabs hi) + 8 * eta < hi - lo \/ lo = hi \/ x <> hi.
Definition s_box_ok (lo hi p : vec3 R) : Prop := s_axis_ok (vx lo) (vx hi) (vx p) /\ s_axis_ok (vy lo) (vy hi) (vy p) /\ s_axis_ok (vz lo) (vz hi) (vz p).
