(** * Specification: segments that pass exactly through edges and corners of a mesh (real arithmetic) *)
From Coq Require Import ZArith List Bool Reals.
From Verif Require Import MathTypes Spec SpecQuery.
Import ListNotations.
Local Open Scope R_scope.

(** the line pq meets (or is parallel to) the line ab exactly, or stays clear of it *)
Definition s_sharp (p q a b : vec3 R) : Prop := s_orient p q a b = 0 \/ 1 / 10 ^ 16 < Rabs (s_orient p q a b).
(** p is not within tolerance of the segment ab *)
Definition s_off_edge (p a b : vec3 R) : Prop := 1 / 10 ^ 12 < s_norm (s_diff p a) + s_norm (s_diff b p) - s_norm (s_diff b a).
(** general position but for exact hits of edges and corners *)
Definition s_tame (p q : vec3 R) (t : triple) : Prop :=
  let '(a, b, c) := t in
  (s_sharp p q a b /\ s_sharp p q b c /\ s_sharp p q c a) /\
  1 / 10 ^ 16 < Rabs (s_height a b c p * s_height a b c q) /\
  1 / 10 ^ 12 <= Rabs (s_area p b c + s_area p c a + s_area p a b - s_area a b c) /\
  (s_off_edge p a b /\ s_off_edge p b c /\ s_off_edge p c a).
(** the segment pq passes through none of the points *)
Definition s_off_corners (p q : vec3 R) (pts : list (vec3 R)) : Prop := forall v t, In v pts -> 0 <= t <= 1 -> s_between p q t <> v.
(** y is closer than e to x in every coordinate *)
Definition s_close (e : R) (x y : vec3 R) : Prop := Rabs (vx x - vx y) < e /\ Rabs (vy x - vy y) < e /\ Rabs (vz x - vz y) < e.
(** the segment pq is in general position (no tolerances) *)
Definition s_regular (p q : vec3 R) (t : triple) : Prop :=
  let '(a, b, c) := t in
  (s_orient p q a b <> 0 /\ s_orient p q b c <> 0 /\ s_orient p q c a <> 0) /\ s_height a b c p <> 0 /\ s_height a b c q <> 0.
