(** * Independent specification vocabulary

    Plain mathematical notions over the reals, written without the operations of
    the model (only the data carriers vec3, mat3, ... are shared). *)
From Coq Require Import Reals ZArith List Lia.
From Verif Require Import MathTypes.
Import ListNotations.
Local Open Scope R_scope.

(** ** Linear algebra *)
Definition s_dot (a b : vec3 R) : R := vx a * vx b + vy a * vy b + vz a * vz b.
Definition s_norm2 (a : vec3 R) : R := s_dot a a.
Definition s_dist2 (a b : vec3 R) : R :=
  (vx a - vx b) ^ 2 + (vy a - vy b) ^ 2 + (vz a - vz b) ^ 2.
Definition s_dist (a b : vec3 R) : R := sqrt (s_dist2 a b).
Definition s_det (a b c : vec3 R) : R :=
  vx a * (vy b * vz c - vz b * vy c) - vy a * (vx b * vz c - vz b * vx c)
  + vz a * (vx b * vy c - vy b * vx c).

Definition col1 (m : mat3 R) := V3 (mxx m) (myx m) (mzx m).
Definition col2 (m : mat3 R) := V3 (mxy m) (myy m) (mzy m).
Definition col3 (m : mat3 R) := V3 (mxz m) (myz m) (mzz m).

(** proper rotation: orthonormal columns, determinant +1 *)
Record rotation (m : mat3 R) : Prop := {
  rot_11 : s_dot (col1 m) (col1 m) = 1;
  rot_22 : s_dot (col2 m) (col2 m) = 1;
  rot_33 : s_dot (col3 m) (col3 m) = 1;
  rot_12 : s_dot (col1 m) (col2 m) = 0;
  rot_13 : s_dot (col1 m) (col3 m) = 0;
  rot_23 : s_dot (col2 m) (col3 m) = 0;
  rot_det : s_det (col1 m) (col2 m) (col3 m) = 1
}.

(** rigid transform: rotation followed by a translation *)
Definition rigid (t : trans3 R) : Prop := rotation (tR t).

Record rotation2 (m : mat2 R) : Prop := {
  rot2_11 : m2xx m * m2xx m + m2yx m * m2yx m = 1;
  rot2_22 : m2xy m * m2xy m + m2yy m * m2yy m = 1;
  rot2_12 : m2xx m * m2xy m + m2yx m * m2yy m = 0;
  rot2_det : m2xx m * m2yy m - m2xy m * m2yx m = 1
}.

(** elementary rotations acting on vectors *)
Definition rot_x (a : R) (v : vec3 R) : vec3 R :=
  V3 (vx v) (cos a * vy v - sin a * vz v) (sin a * vy v + cos a * vz v).
Definition rot_y (a : R) (v : vec3 R) : vec3 R :=
  V3 (cos a * vx v + sin a * vz v) (vy v) (- sin a * vx v + cos a * vz v).
Definition rot_z (a : R) (v : vec3 R) : vec3 R :=
  V3 (cos a * vx v - sin a * vy v) (sin a * vx v + cos a * vy v) (vz v).

(** Hamilton product of quaternions (x,y,z,w) = w + xi + yj + zk *)
Definition hamilton (a b : quat R) : quat R :=
  Q (qw a * qx b + qx a * qw b + qy a * qz b - qz a * qy b)
    (qw a * qy b - qx a * qz b + qy a * qw b + qz a * qx b)
    (qw a * qz b + qx a * qy b - qy a * qx b + qz a * qw b)
    (qw a * qw b - qx a * qx b - qy a * qy b - qz a * qz b).
Definition q_inv (a : quat R) : quat R :=
  let d := qx a ^ 2 + qy a ^ 2 + qz a ^ 2 + qw a ^ 2 in
  Q (- qx a / d) (- qy a / d) (- qz a / d) (qw a / d).
Definition q_of_vec (v : vec3 R) : quat R := Q (vx v) (vy v) (vz v) 0.
Definition q_norm2 (a : quat R) : R := qx a ^ 2 + qy a ^ 2 + qz a ^ 2 + qw a ^ 2.
Definition q_neg (a : quat R) : quat R := Q (- qx a) (- qy a) (- qz a) (- qw a).

(** ** Meshes (independent of the model's functions; generic in the scalar type) *)
Section MeshSpec.
  Context {T : Type}.

  (** lookup by position *)
  Fixpoint s_nth {A} (l : list A) (i : nat) : option A :=
    match l, i with
    | [], _ => None
    | a :: _, O => Some a
    | _ :: r, S i' => s_nth r i'
    end.

  (** the triangles of a mesh as point triples; None when an index is dangling *)
  Fixpoint s_soup (pts : list (vec3 T)) (ts : list (N * N * N)) : option (list (vec3 T * vec3 T * vec3 T)) :=
    match ts with
    | [] => Some []
    | (i, j, k) :: r =>
        match s_nth pts (N.to_nat i), s_nth pts (N.to_nat j), s_nth pts (N.to_nat k), s_soup pts r with
        | Some a, Some b, Some c, Some rest => Some ((a, b, c) :: rest)
        | _, _, _, _ => None
        end
    end.

  Definition s_valid (npts : nat) (ts : list (N * N * N)) : Prop :=
    forall i j k, In (i, j, k) ts -> (N.to_nat i < npts /\ N.to_nat j < npts /\ N.to_nat k < npts)%nat.

  (** the elements of l whose key has not occurred before (first occurrences) *)
  Fixpoint s_firsts {A K} (eqb : K -> K -> bool) (key : A -> K) (seen : list K) (l : list A) : list A :=
    match l with
    | [] => []
    | a :: r => if existsb (eqb (key a)) seen then s_firsts eqb key seen r
                else a :: s_firsts eqb key (key a :: seen) r
    end.
End MeshSpec.

(** distance of a point to the origin *)
Definition s_norm (a : vec3 R) : R := sqrt (s_dot a a).

(** point of a (filled) triangle: convex combination of the corners *)
Definition in_triangle (a b c p : vec3 R) : Prop :=
  exists u v w, 0 <= u /\ 0 <= v /\ 0 <= w /\ u + v + w = 1 /\
    p = V3 (u * vx a + v * vx b + w * vx c) (u * vy a + v * vy b + w * vy c) (u * vz a + v * vz b + w * vz c).

(** ** Axis-aligned boxes, rays, closed surfaces *)
Definition s_in_box (mn mx p : vec3 R) : Prop :=
  vx mn <= vx p <= vx mx /\ vy mn <= vy p <= vy mx /\ vz mn <= vz p <= vz mx.
Definition s_ordered (mn mx : vec3 R) : Prop := vx mn <= vx mx /\ vy mn <= vy mx /\ vz mn <= vz mx.
Definition s_ray_at (o d : vec3 R) (t : R) : vec3 R := V3 (vx o + t * vx d) (vy o + t * vy d) (vz o + t * vz d).

(** directed edges of index triangles; a closed oriented surface uses every directed edge at most
    once and together with its reverse *)
Fixpoint s_edges (ts : list (N * N * N)) : list (N * N) :=
  match ts with
  | [] => []
  | (i, j, k) :: r => (i, j) :: (j, k) :: (k, i) :: s_edges r
  end.
Definition s_closed_surface (ts : list (N * N * N)) : Prop :=
  NoDup (s_edges ts) /\ forall i j, In (i, j) (s_edges ts) -> i <> j /\ In (j, i) (s_edges ts).
(** six times the enclosed signed volume of a triangle soup *)
Fixpoint s_volume6 (l : list (vec3 R * vec3 R * vec3 R)) : R :=
  match l with
  | [] => 0
  | (a, b, c) :: r => s_det a b c + s_volume6 r
  end.
Definition s_diff (a b : vec3 R) : vec3 R := V3 (vx a - vx b) (vy a - vy b) (vz a - vz b).
(** q is strictly behind the plane of the counter-clockwise triangle abc *)
Definition s_behind (a b c q : vec3 R) : Prop := s_det (s_diff b a) (s_diff c a) (s_diff q a) < 0.
(** direction scaled to length one *)
Definition s_unit (d : vec3 R) : vec3 R := V3 (vx d / s_norm d) (vy d / s_norm d) (vz d / s_norm d).
(** no component of the unit direction is below 1e-9 in magnitude *)
Definition s_general_dir (d : vec3 R) : Prop :=
  1/1000000000 <= Rabs (vx (s_unit d)) /\ 1/1000000000 <= Rabs (vy (s_unit d)) /\ 1/1000000000 <= Rabs (vz (s_unit d)).

(** closed convex hull of finitely many points, by its supporting half spaces *)
Definition s_hull (cs : list (vec3 R)) (p : vec3 R) : Prop :=
  forall a b c k, (forall q, In q cs -> a * vx q + b * vy q + c * vz q + k <= 0) -> a * vx p + b * vy p + c * vz p + k <= 0.
(** corners of a triangle soup *)
Definition s_corners {T} (l : list (vec3 T * vec3 T * vec3 T)) : list (vec3 T) := flat_map (fun '(a, b, c) => [a; b; c]) l.
