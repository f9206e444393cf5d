(** * include/geolib/math_types.h: rotations of the integer matrices and transforms
    Mat3i, Mat3u, Transform2i, Transform3i, ... (math_types.h:899-932) instantiate the rotation functions with T = int and unsigned int.
    In them sqrt, sin, cos and 0.5 / s are computed on doubles and converted back to T on assignment.
    setRotation(QuaternionT) (:644-662) has neither and no branch: it is m3setRotation of MathTypes.v on cint and cuint.
    getRPY, getYaw and rotation() of integer transforms are in IntRpy.v. *)
From Coq Require Import ZArith List Bool.
From Verif Require Import Num MathTypes Outcome IntTypes Libm.
Local Open Scope num_scope.

(** [s = 0.5 / s] for a T that is converted to double, divided, and converted back, :624, :639 *)
Definition half_over (z : Z) : option Z := toint ((nlit 5 10 : F64) / nofZ z).
Definition ihalf : cint -> cint := iun (fun z => match half_over z with Some r => IVal r | None => IUndef end).
Definition uhalf : cuint -> cuint := uun (fun z => match half_over z with Some r => UVal r | None => UUndef end).
Definition idef (x : cint) : bool := match x with IVal _ => true | IUndef => false end.
Definition udef (x : cuint) : bool := match x with UVal _ => true | UUndef => false end.

Section Get.
  Context {T : Type} {NT : Num T}.
  (** getRotation, :614-642, with the operations in which T matters as arguments: [half] is [0.5 / s] stored in a T, and [def] tells whether
      a value is defined; branching on an undefined value is undefined behaviour.  [q0] is the incoming value of the output parameter. *)
  Definition getRotationG (def : T -> bool) (half : T -> T) (m : mat3 T) (q0 : quat T) : outcome (quat T) :=
    let trace := mxx m + myy m + mzz m in
    if negb (def trace && def (mxx m) && def (myy m) && def (mzz m))%bool then UB
    else if trace >? n0 then
      let s := nsqrt (trace + n1) in
      let q := qset q0 3 (s / n2) in
      let s := half s in
      let q := qset q 0 ((mzy m - myz m) * s) in
      let q := qset q 1 ((mxz m - mzx m) * s) in
      Ret (qset q 2 ((myx m - mxy m) * s))
    else
      let i := if mxx m <? myy m then (if myy m <? mzz m then 2%nat else 1%nat)
               else (if mxx m <? mzz m then 2%nat else 0%nat) in
      let j := ((i + 1) mod 3)%nat in
      let k := ((i + 2) mod 3)%nat in
      let s := nsqrt (m3get m (i * 4)%nat - m3get m (j * 4)%nat - m3get m (k * 4)%nat + n1) in
      let q := qset q0 i (s / n2) in
      let s := half s in
      let q := qset q 3 ((m3get m (k * 3 + j)%nat - m3get m (j * 3 + k)%nat) * s) in
      let q := qset q j ((m3get m (j * 3 + i)%nat + m3get m (i * 3 + j)%nat) * s) in
      Ret (qset q k ((m3get m (k * 3 + i)%nat + m3get m (i * 3 + k)%nat) * s)).
End Get.
Definition i_getRotation : mat3 cint -> quat cint -> outcome (quat cint) := getRotationG idef ihalf.   (* Mat3i::getRotation, :614-642 *)
Definition u_getRotation : mat3 cuint -> quat cuint -> outcome (quat cuint) := getRotationG udef uhalf. (* Mat3u::getRotation, :614-642 *)
(** Transform3i::getQuaternion, :832-837: the quaternion is value-initialised first (:398) *)
Definition i_getQuaternion (t : trans3 cint) : outcome (quat cint) := i_getRotation (tR t) q_default.

(** sin and cos of an int argument are computed on doubles and converted back, :591-596, :762-763; atan2 is too, in rotation(), :771.
    [npi] is only used by getRPY, which on integers is getRPYG of IntRpy.v. *)
Definition tr1 (f : F64 -> F64) (x : cint) : cint := iun (fun z => match toint (f (nofZ z)) with Some r => IVal r | None => IUndef end) x.
Definition TrigI (L : libm) : Trig cint := {|
  nsin := tr1 (lm_sin L); ncos := tr1 (lm_cos L);
  natan2 := iop (fun y x => match toint (lm_atan2 L (nofZ y) (nofZ x)) with Some r => IVal r | None => IUndef end);
  npi := IVal 3 |}.
Definition i_setRPY (L : libm) : cint -> cint -> cint -> mat3 cint := @m3rpy cint NumI (TrigI L).        (* Mat3i::setRPY, :589-610 *)
(** Transform3i::setRPY, :850: the doubles are converted to int on the call *)
Definition i_tsetRPY (L : libm) (t : trans3 cint) (roll pitch yaw : F64) : trans3 cint :=
  let conv x := match toint x with Some z => IVal z | None => IUndef end in
  T3 (i_setRPY L (conv roll) (conv pitch) (conv yaw)) (MathTypes.tt t).
Definition i_t2rot (L : libm) : cint -> mat2 cint := @t2rot cint NumI (TrigI L).                          (* Transform2i::setRotation, :760-769 *)
