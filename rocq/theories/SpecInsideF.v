(** * Specification of point containment on doubles: how far a point must stay from the decisions of the crossing test *)
From Coq Require Import Reals.
From Verif Require Import Num MathTypes Spec SpecRound SpecQuery.
Local Open Scope R_scope.

(** general position with a margin for rounding: the line from p to the point 1.1 rad out on the x-axis stays clear of the edge lines
    of the triangle, p and that point stay clear of its plane, and p is not within the area tolerance of the triangle *)
Definition s_robust (rad : R) (p : vec3 R) (t : triple) : Prop :=
  let '(a, b, c) := t in let q := s_outside rad in
  2 / 10 ^ 16 + 4000 * uro * rad ^ 3 <= Rabs (s_orient p q a b) /\ 2 / 10 ^ 16 + 4000 * uro * rad ^ 3 <= Rabs (s_orient p q b c) /\
  2 / 10 ^ 16 + 4000 * uro * rad ^ 3 <= Rabs (s_orient p q c a) /\
  2 / 10 ^ 16 + 2000000 * uro * rad ^ 6 <= Rabs (s_height a b c p * s_height a b c q) /\
  2 / 10 ^ 12 + 2000 * uro * rad ^ 2 <= Rabs (s_area p b c + s_area p c a + s_area p a b - s_area a b c).
(** not in the thin shell around the sphere of radius rad *)
Definition s_off_sphere (rad : R) (p : vec3 R) : Prop := 100 * uro * (rad * rad) <= Rabs (s_norm2 p - rad * rad).
