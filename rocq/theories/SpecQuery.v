(** * Specification of point and sphere queries on triangle meshes (real arithmetic) *)
From Coq Require Import ZArith List Bool Reals.
From Verif Require Import MathTypes Spec.
Import ListNotations.
Local Open Scope R_scope.

Definition triple := (vec3 R * vec3 R * vec3 R)%type.
(** the point at parameter t of the segment from p (t = 0) to q (t = 1) *)
Definition s_between (p q : vec3 R) (t : R) : vec3 R :=
  V3 (vx p + t * (vx q - vx p)) (vy p + t * (vy q - vy p)) (vz p + t * (vz q - vz p)).
(** the segment pq meets the triangle abc *)
Definition s_meets (p q a b c : vec3 R) : Prop := exists t, 0 <= t <= 1 /\ in_triangle a b c (s_between p q t).
(** how the line pq passes ab: the oriented volume spanned by pq and ab (six times the tetrahedron) *)
Definition s_orient (p q a b : vec3 R) : R := s_det (s_diff q p) (s_diff a p) (s_diff b p).
(** height of x over the plane of the counter-clockwise triangle abc, times twice the triangle's area *)
Definition s_height (a b c x : vec3 R) : R := s_det (s_diff b a) (s_diff c a) (s_diff x a).
(** z = +1 when the segment pq leaves through the triangle's front, -1 when it enters, 0 when it does not meet it *)
Definition s_crossing (p q : vec3 R) (t : triple) (z : Z) : Prop :=
  let '(a, b, c) := t in
  (s_meets p q a b c /\ s_height a b c p < s_height a b c q /\ z = 1%Z) \/
  (s_meets p q a b c /\ s_height a b c q < s_height a b c p /\ z = (-1)%Z) \/
  (~ s_meets p q a b c /\ z = 0%Z).
(** area of a triangle *)
Definition s_area (a b c : vec3 R) : R :=
  let u := s_diff b a in let v := s_diff c a in sqrt (s_dot u u * s_dot v v - s_dot u v ^ 2) / 2.
(** general position: the line pq stays clear of the edge lines, p and q stay clear of the triangle's plane, and p is
    not within the area tolerance of the triangle *)
Definition s_generic (p q : vec3 R) (t : triple) : Prop :=
  let '(a, b, c) := t in
  1 / 10 ^ 16 < Rabs (s_orient p q a b) /\ 1 / 10 ^ 16 < Rabs (s_orient p q b c) /\ 1 / 10 ^ 16 < Rabs (s_orient p q c a) /\
  1 / 10 ^ 16 < Rabs (s_height a b c p * s_height a b c q) /\
  1 / 10 ^ 12 <= Rabs (s_area p b c + s_area p c a + s_area p a b - s_area a b c).
Definition s_zsum (l : list Z) : Z := fold_right Z.add 0%Z l.
(** the point outside that contains() connects the query point to *)
Definition s_outside (rad : R) : vec3 R := V3 (11 / 10 * rad) 0 0.
(** largest distance of the points to the origin *)
Definition s_max_radius (pts : list (vec3 R)) (rad : R) : Prop :=
  0 <= rad /\ (forall v, In v pts -> s_norm v <= rad) /\ ((pts = [] /\ rad = 0) \/ exists v, In v pts /\ s_norm v = rad).
(** convex set of points *)
Definition s_convex (K : vec3 R -> Prop) : Prop := forall a b t, K a -> K b -> 0 <= t <= 1 -> K (s_between a b t).
(** the segment pq meets none of the triangles *)
Definition s_clear (p q : vec3 R) (l : list triple) : Prop := forall a b c, In (a, b, c) l -> ~ s_meets p q a b c.
(** the triangles pqr and abc are in general position: no edge line of one meets an edge line of the other, and no corner
    of one lies in the plane of the other *)
Definition s_general (p q r : vec3 R) (t : triple) : Prop :=
  let '(a, b, c) := t in
  (s_orient p q a b <> 0 /\ s_orient p q b c <> 0 /\ s_orient p q c a <> 0) /\
  (s_orient q r a b <> 0 /\ s_orient q r b c <> 0 /\ s_orient q r c a <> 0) /\
  (s_orient r p a b <> 0 /\ s_orient r p b c <> 0 /\ s_orient r p c a <> 0) /\
  (s_height a b c p <> 0 /\ s_height a b c q <> 0 /\ s_height a b c r <> 0) /\
  (s_height p q r a <> 0 /\ s_height p q r b <> 0 /\ s_height p q r c <> 0).
(** p and p' are joined by a polygonal path that meets no triangle of l, whose pieces are in general position with
    respect to the point q *)
Inductive s_joined (l : list triple) (q : vec3 R) : vec3 R -> vec3 R -> Prop :=
| joined_refl : forall p, s_joined l q p p
| joined_step : forall p p' p'', s_clear p p' l -> (forall t, In t l -> s_general p p' q t) -> s_joined l q p' p'' -> s_joined l q p p''.
(** x lies in the inside of the triangle abc, off its edges *)
Definition s_inner (t : triple) (x : vec3 R) : Prop :=
  let '(a, b, c) := t in
  exists u v w, 0 < u /\ 0 < v /\ 0 < w /\ u + v + w = 1 /\
    x = V3 (u * vx a + v * vx b + w * vx c) (u * vy a + v * vy b + w * vy c) (u * vz a + v * vz b + w * vz c).
(** the triangles do not overlap: no point is inside two of them *)
Definition s_flat_disjoint (l : list triple) : Prop := ForallOrdPairs (fun t t' => forall x, ~ (s_inner t x /\ s_inner t' x)) l.
(** no point of pts is in front of a triangle of l *)
Definition s_convex_mesh (pts : list (vec3 R)) (l : list triple) : Prop := forall a b c v, In (a, b, c) l -> In v pts -> s_height a b c v <= 0.
(** x is strictly behind all triangles *)
Definition s_strictly_inside (l : list triple) (x : vec3 R) : Prop := forall a b c, In (a, b, c) l -> s_height a b c x < 0.
