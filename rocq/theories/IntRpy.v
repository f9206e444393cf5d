(** * include/geolib/math_types.h: angles of the integer transforms
    getRPY and getYaw (math_types.h:852-874) of Transform3i and Transform3u return doubles; the arithmetic on the matrix is done on T, and
    sqrt and atan2 of integers are computed on doubles.  rotation() (:771) of Transform2i and Transform2u converts the result of atan2 back to T.
    The libm is an argument (Libm.v). *)
From Coq Require Import ZArith List Bool.
From Verif Require Import Num MathTypes Outcome IntTypes Libm IntRot.
Local Open Scope num_scope.

Section Get.
  Context {T : Type} {NT : Num T}.
  (** getRPY, :852-867; returns (roll, pitch, yaw).  [def] tells whether an operation on T was defined, [dbl] converts to double *)
  Definition getRPYG (L : libm) (def : T -> bool) (dbl : T -> F64) (R : mat3 T) : outcome (F64 * F64 * F64) :=
    let nzx := - mzx R in
    let s := mzy R * mzy R + mzz R * mzz R in
    if negb (def nzx && def s)%bool then UB
    else
      let pitch := lm_atan2 L (dbl nzx) (nsqrt (dbl s)) in
      if nabs (pitch - f_pi / n2) <? nlit 1 1000000000000 then
        let nxy := - mxy R in
        if negb (def nxy && def (myy R))%bool then UB
        else Ret (n0, pitch, lm_atan2 L (dbl nxy) (dbl (myy R)))
      else if negb (def (mzy R) && def (mzz R) && def (myx R) && def (mxx R))%bool then UB
      else Ret (lm_atan2 L (dbl (mzy R)) (dbl (mzz R)), pitch, lm_atan2 L (dbl (myx R)) (dbl (mxx R))).
End Get.
(** implicit conversions to double; never applied to an undefined value *)
Definition idbl (x : cint) : F64 := match x with IVal z => nofZ z | IUndef => n0 end.
Definition udbl (x : cuint) : F64 := match x with UVal z => nofZ z | UUndef => n0 end.
Definition i_getRPY (L : libm) (t : trans3 cint) : outcome (F64 * F64 * F64) := getRPYG L idef idbl (tR t).   (* Transform3i::getRPY, :852-867 *)
Definition u_getRPY (L : libm) (t : trans3 cuint) : outcome (F64 * F64 * F64) := getRPYG L udef udbl (tR t).  (* Transform3u::getRPY, :852-867 *)
Definition i_getYaw (L : libm) (t : trans3 cint) : outcome F64 := let* a := i_getRPY L t in Ret (snd a).      (* Transform3i::getYaw, :869-874 *)
Definition i_rotation (L : libm) (t : trans2 cint) : cint := @t2rotation cint (TrigI L) t.                     (* Transform2i::rotation, :771 *)
