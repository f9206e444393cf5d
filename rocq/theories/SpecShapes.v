(** * Specification of prisms over planar polygons *)
From Coq Require Import ZArith List Bool Reals.
From Verif Require Import MathTypes Spec.
Import ListNotations.
Local Open Scope R_scope.

(** consecutive corners of a closed polygon, including (last, first) *)
Definition s_cyclic {A} (l : list A) : list (A * A) :=
  match l with [] => [] | a :: r => combine l (r ++ [a]) end.
Definition s_cross2 (a b : vec2 R) : R := v2x a * v2y b - v2y a * v2x b.
Definition s_diff2 (a b : vec2 R) : vec2 R := V2 (v2x a - v2x b) (v2y a - v2y b).
(** twice the signed area of a polygon (shoelace formula); negative for clockwise polygons *)
Definition s_area2 (l : list (vec2 R)) : R := fold_right (fun ab s => s_cross2 (fst ab) (snd ab) + s) 0 (s_cyclic l).
(** convex polygon in clockwise order: every corner lies to the right of (or on) every side *)
Definition s_convex_cw (l : list (vec2 R)) : Prop :=
  forall a b q, In (a, b) (s_cyclic l) -> In q l -> s_cross2 (s_diff2 b a) (s_diff2 q a) <= 0.
(** q is not in front of the plane of the counter-clockwise triangle abc *)
Definition s_not_front (a b c q : vec3 R) : Prop := s_det (s_diff b a) (s_diff c a) (s_diff q a) <= 0.
(** the regular polygon with n corners on the circle of radius r, starting at (0, r), clockwise *)
Definition s_regular (n : nat) (r : R) : list (vec2 R) :=
  map (fun i => V2 (sin (2 * PI * INR i / INR n) * r) (cos (2 * PI * INR i / INR n) * r)) (seq 0 n).
(** strictly convex polygon in clockwise order: every three corners, in order, turn clockwise *)
Definition s_strict_cw (l : list (vec2 R)) : Prop :=
  forall i j k a b c, (i < j < k)%nat -> nth_error l i = Some a -> nth_error l j = Some b -> nth_error l k = Some c -> s_cross2 (s_diff2 b a) (s_diff2 c a) < 0.
(** p lies strictly inside the prism over the clockwise polygon l between the heights -h/2 and h/2: to the right of every side *)
Definition s_in_prism (l : list (vec2 R)) (h : R) (p : vec3 R) : Prop :=
  - h / 2 < vz p < h / 2 /\ forall a b, In (a, b) (s_cyclic l) -> s_cross2 (s_diff2 b a) (s_diff2 (V2 (vx p) (vy p)) a) < 0.
