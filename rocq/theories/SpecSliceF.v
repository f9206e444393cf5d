(** * Specification of slicing triangles with the laser plane on doubles *)
From Coq Require Import ZArith NArith List Reals.
From Flocq Require Import Core BinarySingleNaN.
From Verif Require Import Num MathTypes Spec SpecRound SpecLaser SpecLaserF.
Import ListNotations.
Local Open Scope R_scope.

(** both components differ by at most e *)
Definition s_close2 (e : R) (p q : vec2 R) : Prop := Rabs (v2x p - v2x q) <= e /\ Rabs (v2y p - v2y q) <= e.
(** the exact place of a vertex in the sensor frame *)
Definition s_at (pose : trans3 F64) (v : vec3 F64) : vec3 R := SpecRound.s_moved (rm (tR pose)) (rv (MathTypes.tt pose)) (rv v).
(** a finite pose with rotation entries of at most 2 (a rotation has entries of at most 1) and an offset of at most N per axis *)
Definition s_pose (N : R) (pose : trans3 F64) : Prop :=
  s_finm (tR pose) /\ s_finv (MathTypes.tt pose) /\ s_boundm 2 (rm (tR pose)) /\ s_bound N (rv (MathTypes.tt pose)).
(** a finite vertex with coordinates of at most M *)
Definition s_vert (M : R) (v : vec3 F64) : Prop := s_finv v /\ s_bound M (rv v).
(** a height that is zero or at least h *)
Definition s_tall (h : R) (z : F64) : Prop := B2R z = 0 \/ h <= Rabs (B2R z).
(** the drawn segment (if any) is, up to e per coordinate, the exact slice of a triangle whose corners differ from a, b and c by at most d per coordinate;
    nothing is drawn when that triangle has all corners on one side *)
Definition s_sliced (e d : R) (a b c : vec3 R) (o : option (vec2 F64 * vec2 F64)) : Prop :=
  exists a' b' c', s_close d a' a /\ s_close d b' b /\ s_close d c' c /\
  match o with
  | None => ~ s_straddles a' b' c'
  | Some (q1, q2) => s_straddles a' b' c' /\ s_finv2 q1 /\ s_finv2 q2 /\ exists p1 p2, s_slice a' b' c' p1 p2 /\ s_close2 e (s_r2 q1) p1 /\ s_close2 e (s_r2 q2) p2
  end.
(** the drawn segments of a list of triangles, in order *)
Inductive s_slicesF (e d : R) : list (vec3 R * vec3 R * vec3 R) -> list (vec2 F64 * vec2 F64) -> Prop :=
| slf_nil : s_slicesF e d [] []
| slf_miss : forall a b c ts qs, s_sliced e d a b c None -> s_slicesF e d ts qs -> s_slicesF e d ((a, b, c) :: ts) qs
| slf_cut : forall a b c s ts qs, s_sliced e d a b c (Some s) -> s_slicesF e d ts qs -> s_slicesF e d ((a, b, c) :: ts) (s :: qs).
(** a list of triangles lies on one side of the plane (up to g), or entirely farther away than k *)
Definition s_hidden (g k : R) (ts : list (vec3 R * vec3 R * vec3 R)) : Prop :=
  (forall a b c x, In (a, b, c) ts -> in_triangle a b c x -> - g < vz x) \/
  (forall a b c x, In (a, b, c) ts -> in_triangle a b c x -> vz x < g) \/
  (forall a b c x, In (a, b, c) ts -> in_triangle a b c x -> k < s_norm x).
