(** * Specification of normals, areas and normalised matrices on doubles *)
From Coq Require Import ZArith NArith List Reals.
From Flocq Require Import Core BinarySingleNaN.
From Verif Require Import Num MathTypes Mesh Spec SpecRound.
Import ListNotations.
Local Open Scope R_scope.

(** the exact cross product, and the area of the triangle with two given sides *)
Definition s_cp (a b : vec3 R) : vec3 R := V3 (vy a * vz b - vz a * vy b) (vz a * vx b - vx a * vz b) (vx a * vy b - vy a * vx b).
Definition s_area (a b c : vec3 R) : R := s_norm (s_cp (s_diff b a) (s_diff c a)) / 2.
(** triangle i of a mesh has the corners a, b, c *)
Definition s_corners (m : mesh F64) (i : nat) (a b c : vec3 F64) : Prop :=
  exists x y z, nth_error (m_tris m) i = Some (TI x y z) /\
    nth_error (m_points m) (N.to_nat x) = Some a /\ nth_error (m_points m) (N.to_nat y) = Some b /\ nth_error (m_points m) (N.to_nat z) = Some c.
(** finite corners far from overflow; the sides from the first corner have components up to E and W, and twice the area is at least k E W.
    k is a measure of quality: it is small for slivers *)
Definition s_fat (k E W : R) (a b c : vec3 F64) : Prop :=
  (s_finv a /\ s_finv b /\ s_finv c) /\
  s_bound E (s_diff (rv b) (rv a)) /\ s_bound W (s_diff (rv c) (rv a)) /\ k * (E * W) <= s_norm (s_cp (s_diff (rv b) (rv a)) (s_diff (rv c) (rv a))) /\
  / 1000000000 <= k /\ 0 < E <= bpow radix2 400 /\ 0 < W <= bpow radix2 400 /\ bpow radix2 (-400) <= E * W <= bpow radix2 400.
(** two corners agree as numbers *)
Definition s_same (a b : vec3 F64) : Prop := rv a = rv b.
Definition s_nanv (v : vec3 F64) : Prop := is_nan (vx v) = true /\ is_nan (vy v) = true /\ is_nan (vz v) = true.
(** the columns of a matrix of doubles *)
Definition s_colF (m : mat3 F64) (i : nat) : vec3 F64 :=
  match i with O => V3 (mxx m) (myx m) (mzx m) | S O => V3 (mxy m) (myy m) (mzy m) | _ => V3 (mxz m) (myz m) (mzz m) end.
Definition s_col (m : mat3 R) (i : nat) : vec3 R := match i with O => col1 m | S O => col2 m | _ => col3 m end.
