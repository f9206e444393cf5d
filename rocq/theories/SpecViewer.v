(** * Specification vocabulary for the viewers, independent of the model *)
From Coq Require Import ZArith List Reals.
From Verif Require Import MathTypes Spec SpecDepth.
Import ListNotations.
Local Open Scope R_scope.

(** show: position, in the camera's frame, of the point p of an object of radius r: the object is turned by the angle about the
    vertical axis and put 3 r in front of the camera, whose axes are turned by 1.57 *)
Definition s_show_pos (r angle : R) (p : vec3 R) : vec3 R :=
  let u := rot_z angle p in rot_x (- (157 / 100)) (rot_z (157 / 100) (V3 (vx u + 3 * r) (vy u) (vz u))).
(** grey value shown for a depth *)
Definition s_grey (r d : R) : R := if Rlt_dec 0 d then (d - 2 * r) / (2 * r) else d.
(** showKinect: position in the camera's frame *)
Definition s_kinect_pos (r angle : R) (p : vec3 R) : vec3 R :=
  let u := rot_y angle (rot_x (- (157 / 100)) p) in V3 (vx u) (vy u) (vz u + r / 2).
(** all pixels of an image of w columns and h rows hold the value 0 *)
Definition s_blank (w h : Z) (fr : list (list R)) : Prop :=
  Z.of_nat (length fr) = h /\ forall row, In row fr -> Z.of_nat (length row) = w /\ forall v, In v row -> v = 0.
(** the focal length of the canvas, in pixels *)
Definition s_focal : R := 5542559327880068 / 10000000000000.
(** the low byte of the key code is that of the letter q *)
Definition s_key_q (k : Z) : Prop := exists n, k = (256 * n + 113)%Z.
