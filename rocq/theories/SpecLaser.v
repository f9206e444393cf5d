(** * Specification of the laser range finder (real arithmetic) *)
From Coq Require Import ZArith NArith List Bool Reals.
From Verif Require Import MathTypes Spec.
Import ListNotations.
Local Open Scope R_scope.

(** angle between neighbouring beams and angle of beam i *)
Definition s_incr (amin amax : R) (n : N) : R := if N.leb n 1 then amax - amin else (amax - amin) / (IZR (Z.of_N n) - 1).
Definition s_beam (amin amax : R) (n : N) (i : nat) : R := amin + INR i * s_incr amin amax n.
(** k is the first of n increasing angles above a (n when there is none) *)
Definition s_first_above (angle : nat -> R) (n : nat) (a : R) (k : nat) : Prop :=
  (k <= n)%nat /\ (forall i, (i < k)%nat -> angle i <= a) /\ ((k < n)%nat -> a < angle k).
(** keep the nearer of the stored range r (0: nothing stored) and the new range d *)
Definition s_nearer (r d : R) : R := if Req_EM_T r 0 then d else Rmin r d.
(** twice the signed area of the triangle origin, p, q: positive when q is counter-clockwise from p *)
Definition s_turn (p q : vec2 R) : R := v2x p * v2y q - v2y p * v2x q.
(** the point at parameter t of the segment pq *)
Definition s_along (p q : vec2 R) (t : R) : vec2 R := V2 (v2x p + t * (v2x q - v2x p)) (v2y p + t * (v2y q - v2y p)).
Definition s_len2 (p : vec2 R) : R := v2x p * v2x p + v2y p * v2y p.
(** the beam at angle a meets the segment pq (without its start p), seen from its front, at distance d *)
Definition s_lit (a : R) (p q : vec2 R) (d : R) : Prop :=
  0 < s_turn p q /\ 0 < d /\ exists t, 0 < t <= 1 /\ V2 (d * cos a) (d * sin a) = s_along p q t.
(** the rotated and translated point *)
Definition s_moved (pose : trans3 R) (v : vec3 R) : vec3 R :=
  let m := tR pose in let o := MathTypes.tt pose in
  V3 (mxx m * vx v + mxy m * vy v + mxz m * vz v + vx o) (myx m * vx v + myy m * vy v + myz m * vz v + vy o) (mzx m * vx v + mzy m * vy v + mzz m * vz v + vz o).
(** normal of the triangle abc *)
Definition s_normal (a b c : vec3 R) : vec3 R :=
  let u := s_diff b a in let v := s_diff c a in
  V3 (vy u * vz v - vz u * vy v) (vz u * vx v - vx u * vz v) (vx u * vy v - vy u * vx v).
(** the segment q1 q2 is what the triangle abc and the plane z = 0 have in common, with the front of the triangle to the
    same side for every triangle: turning the normal's horizontal part by -90 degrees gives the direction q1 to q2 *)
Definition s_slice (a b c : vec3 R) (q1 q2 : vec2 R) : Prop :=
  (forall x : vec2 R, (exists v, in_triangle a b c v /\ vz v = 0 /\ V2 (vx v) (vy v) = x) <-> exists t, 0 <= t <= 1 /\ x = s_along q1 q2 t) /\
  exists k, 0 <= k /\ v2x q2 - v2x q1 = k * vy (s_normal a b c) /\ v2y q2 - v2y q1 = - k * vx (s_normal a b c).
(** a triangle has corners strictly below and corners on or above the plane z = 0 *)
Definition s_straddles (a b c : vec3 R) : Prop :=
  (vz a < 0 \/ vz b < 0 \/ vz c < 0) /\ (0 <= vz a \/ 0 <= vz b \/ 0 <= vz c).
(** ranges' is ranges after drawing the segment pq: every beam it lights holds the nearer of the old range and the distance
    to the segment; everything else is unchanged *)
Definition s_drawn (beam : nat -> R) (n : nat) (p q : vec2 R) (ranges ranges' : list R) : Prop :=
  length ranges' = length ranges /\
  forall i r, nth_error ranges i = Some r ->
    ((i < n)%nat /\ exists d, s_lit (beam i) p q d /\ nth_error ranges' i = Some (s_nearer r d)) \/
    (((n <= i)%nat \/ forall d, ~ s_lit (beam i) p q d) /\ nth_error ranges' i = Some r).
(** direction of a point as seen from the sensor *)
Definition s_angle (p : vec2 R) (a : R) : Prop := - PI < a <= PI /\ exists r, 0 < r /\ p = V2 (r * cos a) (r * sin a).
(** some point of the segment is within the maximum range (no limit when it is not positive) *)
Definition s_within (rmax : R) (p q : vec2 R) : Prop := rmax <= 0 \/ exists t, 0 <= t <= 1 /\ s_len2 (s_along p q t) <= rmax * rmax.
(** the beam at angle a, in the plane z = 0, hits the front of the triangle abc at distance d *)
Definition s_front_hit (a b c : vec3 R) (ang d : R) : Prop :=
  let x := V3 (d * cos ang) (d * sin ang) 0 in 0 < d /\ in_triangle a b c x /\ s_dot (s_normal a b c) x < 0.
(** x is inside the triangle abc, not on its border *)
Definition in_open_triangle (a b c x : vec3 R) : Prop :=
  exists u v w, 0 < u /\ 0 < v /\ 0 < w /\ u + v + w = 1 /\
    x = V3 (u * vx a + v * vx b + w * vx c) (u * vy a + v * vy b + w * vy c) (u * vz a + v * vz b + w * vz c).
(** beams within (-pi, pi], and at most 2147483640 increments on a full circle *)
Definition s_config (amin amax : R) (n : N) : Prop :=
  (0 < n < 2147483648)%N /\ - PI < amin < amax /\ amax <= PI /\ 2 * PI / s_incr amin amax n <= IZR 2147483640.
(** direction a is not less than one increment before the first beam *)
Definition s_clear (amin amax : R) (n : N) (a : R) : Prop := ~ (amin - s_incr amin amax n < a < amin).
(** both end points clear of the gap before the first beam, and the angle between them not within three increments of a half circle *)
Definition s_fair (amin amax : R) (n : N) (p q : vec2 R) : Prop :=
  exists a b, s_angle p a /\ s_angle q b /\ s_clear amin amax n a /\ s_clear amin amax n b /\ 3 * s_incr amin amax n <= Rabs (Rabs (b - a) - PI).
(** the segments the triangles ts leave in the plane z = 0, in order *)
Inductive s_slices : list (vec3 R * vec3 R * vec3 R) -> list (vec2 R * vec2 R) -> Prop :=
| sl_nil : s_slices [] []
| sl_miss : forall a b c ts qs, ~ s_straddles a b c -> s_slices ts qs -> s_slices ((a, b, c) :: ts) qs
| sl_cut : forall a b c p q ts qs, s_straddles a b c -> s_slice a b c p q -> s_slices ts qs -> s_slices ((a, b, c) :: ts) ((p, q) :: qs).
(** the slice of the triangle, if it has one, is degenerate or fair to the beams (s_fair) *)
Definition s_fair_tri (amin amax : R) (n : N) (t : vec3 R * vec3 R * vec3 R) : Prop :=
  let '(a, b, c) := t in s_straddles a b c -> forall p q, s_slice a b c p q -> p = V2 0 0 \/ q = V2 0 0 \/ p = q \/ s_fair amin amax n p q.
