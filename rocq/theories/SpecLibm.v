(** * Specification for the theorems about trigonometry on doubles *)
From Coq Require Import ZArith Reals.
From Flocq Require Import Core BinarySingleNaN.
From Verif Require Import Num MathTypes Spec SpecRound SpecLaser Libm.
Local Open Scope R_scope.

(** an accurate library: sines and cosines are within c units of 2^-53, the angles of atan2 within 4 c units, except for points on
    the negative x axis, where the sign of the zero chooses between pi and -pi, and for the origin *)
Definition s_libm (c : R) (L : libm) : Prop :=
  (forall x, s_fin x -> s_fin (lm_sin L x) /\ Rabs (B2R (lm_sin L x) - sin (B2R x)) <= c * uro) /\
  (forall x, s_fin x -> s_fin (lm_cos L x) /\ Rabs (B2R (lm_cos L x) - cos (B2R x)) <= c * uro) /\
  (forall y x a, s_fin y -> s_fin x -> B2R y <> 0 \/ 0 < B2R x -> s_angle (V2 (B2R x) (B2R y)) a ->
     s_fin (lm_atan2 L y x) /\ Rabs (B2R (lm_atan2 L y x) - a) <= 4 * c * uro).
(** the rotation about x, then y, then z, as a matrix: its columns are the images of the unit vectors *)
Definition s_rpy (r p y : R) : mat3 R :=
  let f v := rot_z y (rot_y p (rot_x r v)) in let a := f (V3 1 0 0) in let b := f (V3 0 1 0) in let c := f (V3 0 0 1) in
  M3 (vx a) (vx b) (vx c) (vy a) (vy b) (vy c) (vz a) (vz b) (vz c).
