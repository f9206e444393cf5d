(** * Specification vocabulary for the depth camera, independent of the model *)
From Coq Require Import ZArith List Reals.
From Flocq Require Import Core.Raux.
From Verif Require Import Num MathTypes Spec.
Local Open Scope R_scope.

(** image position (x, y) and inverse depth of a projected vertex are stored in one vector; the rasteriser moves the vertices to
    the row given by truncating y *)
Definition s_snap (v : vec3 R) : vec3 R := V3 (vx v) (IZR (Ztrunc (vy v))) (vz v).
(** at row y the moved triangle has a point at column coordinate X, of inverse depth D *)
Definition s_in_row (p1 p2 p3 : vec3 R) (y : Z) (X D : R) : Prop := in_triangle (s_snap p1) (s_snap p2) (s_snap p3) (V3 X (IZR y) D).
(** the moved triangle has a point in pixel (x, y) *)
Definition s_footprint (p1 p2 p3 : vec3 R) (x y : Z) : Prop := exists X D, s_in_row p1 p2 p3 y X D /\ Ztrunc X = x.
(** depth d is read at column coordinate X from the line through the points (Xa, Da) and (Xb, Db) of a row *)
Definition s_on_line (Xa Da Xb Db X d : R) : Prop := d = 1 / (Da + (X - Xa) * ((Db - Da) / (Xb - Xa))).

(** ** The pinhole camera: looking along -z, image y axis pointing down, centre of projection shifted by (Tx, Ty) *)
(** normal of a triangle, by the right hand rule *)
Definition s_normal (a b c : vec3 R) : vec3 R :=
  V3 ((vy b - vy a) * (vz c - vz a) - (vz b - vz a) * (vy c - vy a)) ((vz b - vz a) * (vx c - vx a) - (vx b - vx a) * (vz c - vz a)) ((vx b - vx a) * (vy c - vy a) - (vy b - vy a) * (vx c - vx a)).
(** the front of the triangle is turned towards the centre of projection *)
Definition s_facing (fx fy tx ty : R) (a b d : vec3 R) : Prop :=
  let o := V3 (- tx / fx) (ty / fy) 0 in s_dot (s_normal a b d) (s_diff o a) > 0.
(** image coordinates of a point in front of the camera *)
Definition s_sees (fx fy cx cy tx ty : R) (q : vec3 R) (X Y : R) : Prop :=
  X = (fx * vx q + tx) / (- vz q) + cx /\ Y = (fy * (- vy q) + ty) / (- vz q) + cy.
