(** * Specification of the angles of integer transforms *)
From Coq Require Import ZArith Reals.
From Flocq Require Import Core BinarySingleNaN.
From Verif Require Import Num MathTypes Spec SpecRound SpecLaser SpecLibm Libm.
Local Open Scope R_scope.

(** the part of the standard's contract of atan2 that the accuracy contract [s_libm] leaves out: with a positive zero as first argument the
    angle on the negative axis is pi, and at the origin it is zero *)
Definition s_libm0 (c : R) (L : libm) : Prop :=
  (forall x, s_fin x -> B2R x < 0 -> s_fin (lm_atan2 L (nofZ 0) x) /\ Rabs (B2R (lm_atan2 L (nofZ 0) x) - PI) <= 4 * c * uro) /\
  s_fin (lm_atan2 L (nofZ 0) (nofZ 0)) /\ B2R (lm_atan2 L (nofZ 0) (nofZ 0)) = 0.
(** direction of the point (x,y); zero for the origin *)
Definition s_dir (y x : R) (a : R) : Prop := (y = 0 /\ x = 0 /\ a = 0) \/ s_angle (V2 x y) a.
Definition s_near (e : R) (x : F64) (a : R) : Prop := s_fin x /\ Rabs (B2R x - a) <= e.
(** the entries as real numbers *)
Definition s_zm (m : mat3 Z) : mat3 R :=
  M3 (IZR (mxx m)) (IZR (mxy m)) (IZR (mxz m)) (IZR (myx m)) (IZR (myy m)) (IZR (myz m)) (IZR (mzx m)) (IZR (mzy m)) (IZR (mzz m)).
(** all entries fit in an int *)
Definition s_int (z : Z) : Prop := (-2147483648 <= z <= 2147483647)%Z.
Definition s_intm (m : mat3 Z) : Prop :=
  (s_int (mxx m) /\ s_int (mxy m) /\ s_int (mxz m)) /\ (s_int (myx m) /\ s_int (myy m) /\ s_int (myz m)) /\ (s_int (mzx m) /\ s_int (mzy m) /\ s_int (mzz m)).
