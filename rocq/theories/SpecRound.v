(** * Specification of rounding errors: real numbers denoted by doubles, distances, and exact operations *)
From Coq Require Import ZArith Reals.
From Flocq Require Import Core BinarySingleNaN.
From Verif Require Import Num MathTypes Spec.
Local Open Scope R_scope.

(** unit roundoff 2^-53, half of the smallest subnormal number 2^-1075, and a bound 2^1023 below the overflow threshold *)
Definition uro : R := / 9007199254740992.
Definition eta : R := bpow radix2 (-1075).
Definition big : R := bpow radix2 1023.
(** the real numbers denoted by finite doubles *)
Definition rv (v : vec3 F64) : vec3 R := V3 (B2R (vx v)) (B2R (vy v)) (B2R (vz v)).
Definition rm (m : mat3 F64) : mat3 R :=
  M3 (B2R (mxx m)) (B2R (mxy m)) (B2R (mxz m)) (B2R (myx m)) (B2R (myy m)) (B2R (myz m)) (B2R (mzx m)) (B2R (mzy m)) (B2R (mzz m)).
Definition rq (q : quat F64) : quat R := Q (B2R (qx q)) (B2R (qy q)) (B2R (qz q)) (B2R (qw q)).
(** no infinity, no NaN *)
Definition s_fin (x : F64) : Prop := is_finite x = true.
Definition s_finv (v : vec3 F64) : Prop := s_fin (vx v) /\ s_fin (vy v) /\ s_fin (vz v).
Definition s_finm (m : mat3 F64) : Prop :=
  (s_fin (mxx m) /\ s_fin (mxy m) /\ s_fin (mxz m)) /\ (s_fin (myx m) /\ s_fin (myy m) /\ s_fin (myz m)) /\ (s_fin (mzx m) /\ s_fin (mzy m) /\ s_fin (mzz m)).
Definition s_finq (q : quat F64) : Prop := s_fin (qx q) /\ s_fin (qy q) /\ s_fin (qz q) /\ s_fin (qw q).
(** all components at most B in absolute value *)
Definition s_bound (B : R) (v : vec3 R) : Prop := Rabs (vx v) <= B /\ Rabs (vy v) <= B /\ Rabs (vz v) <= B.
Definition s_boundm (B : R) (m : mat3 R) : Prop :=
  s_bound B (V3 (mxx m) (mxy m) (mxz m)) /\ s_bound B (V3 (myx m) (myy m) (myz m)) /\ s_bound B (V3 (mzx m) (mzy m) (mzz m)).
(** all components differ by at most e *)
Definition s_close (e : R) (p q : vec3 R) : Prop := Rabs (vx p - vx q) <= e /\ Rabs (vy p - vy q) <= e /\ Rabs (vz p - vz q) <= e.
Definition s_closem (e : R) (a b : mat3 R) : Prop :=
  s_close e (V3 (mxx a) (mxy a) (mxz a)) (V3 (mxx b) (mxy b) (mxz b)) /\
  s_close e (V3 (myx a) (myy a) (myz a)) (V3 (myx b) (myy b) (myz b)) /\
  s_close e (V3 (mzx a) (mzy a) (mzz a)) (V3 (mzx b) (mzy b) (mzz b)).
(** the exact image of p under the rotation matrix m and the translation t *)
Definition s_moved (m : mat3 R) (t p : vec3 R) : vec3 R :=
  V3 (s_dot (V3 (mxx m) (mxy m) (mxz m)) p + vx t) (s_dot (V3 (myx m) (myy m) (myz m)) p + vy t) (s_dot (V3 (mzx m) (mzy m) (mzz m)) p + vz t).
(** orthonormal columns up to d *)
Definition s_ortho (d : R) (m : mat3 R) : Prop :=
  (Rabs (s_dot (col1 m) (col1 m) - 1) <= d /\ Rabs (s_dot (col2 m) (col2 m) - 1) <= d /\ Rabs (s_dot (col3 m) (col3 m) - 1) <= d) /\
  Rabs (s_dot (col1 m) (col2 m)) <= d /\ Rabs (s_dot (col1 m) (col3 m)) <= d /\ Rabs (s_dot (col2 m) (col3 m)) <= d.
(** the rotation v |-> q v q^-1, as a matrix: its columns are the images of the unit vectors *)
Definition s_conj (q : quat R) (v : vec3 R) : vec3 R :=
  let p := hamilton (hamilton q (q_of_vec v)) (q_inv q) in V3 (qx p) (qy p) (qz p).
Definition s_qmat (q : quat R) : mat3 R :=
  let a := s_conj q (V3 1 0 0) in let b := s_conj q (V3 0 1 0) in let c := s_conj q (V3 0 0 1) in
  M3 (vx a) (vx b) (vx c) (vy a) (vy b) (vy c) (vz a) (vz b) (vz c).
(** the exact product of two matrices *)
Definition s_mprod (a b : mat3 R) : mat3 R :=
  let row1 := V3 (mxx a) (mxy a) (mxz a) in let row2 := V3 (myx a) (myy a) (myz a) in let row3 := V3 (mzx a) (mzy a) (mzz a) in
  M3 (s_dot row1 (col1 b)) (s_dot row1 (col2 b)) (s_dot row1 (col3 b))
     (s_dot row2 (col1 b)) (s_dot row2 (col2 b)) (s_dot row2 (col3 b))
     (s_dot row3 (col1 b)) (s_dot row3 (col2 b)) (s_dot row3 (col3 b)).
(** a quaternion whose squared length is neither absurdly small nor absurdly large *)
Definition s_range (q : quat F64) : Prop := bpow radix2 (-900) <= q_norm2 (rq q) <= bpow radix2 900.
(** the same for vectors *)
Definition s_rangev (v : vec3 F64) : Prop := bpow radix2 (-900) <= s_norm2 (rv v) <= bpow radix2 900.
(** the exact unit vector along v *)
Definition s_unit (v : vec3 R) : vec3 R := let n := sqrt (s_norm2 v) in V3 (vx v / n) (vy v / n) (vz v / n).
