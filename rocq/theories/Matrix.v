(** * Model of include/geolib/matrix.h: the array-based Vector3, Matrix3x3 and Transform
    The members v_[3], m_[9], o_[3] and r_[9] are lists of that length; [at_] reads them.  Every index in the file is a
    literal below the size except in getRow. *)
From Coq Require Import ZArith List Bool.
From Verif Require Import Num Outcome.
Import ListNotations.

Section Matrix.
  Context {T : Type} {NT : Num T} {TR : Trig T}.
  Local Open Scope num_scope.
  Definition at_ (a : list T) (i : nat) : T := nth i a n0.
  Notation "a $ i" := (at_ a i) (at level 1, format "a $ i").
  (** a[i] = x *)
  Fixpoint put (a : list T) (i : nat) (x : T) : list T :=
    match a, i with [], _ => [] | _ :: r, O => x :: r | y :: r, S i => y :: put r i x end.

  (** ** Vector3, matrix.h:13-83 *)
  (** Vector3(x, y, z), :22-27 *)
  Definition av (x y z : T) : list T := [x; y; z].
  (** setX, setY, setZ, :39-41 *)
  Definition av_set (v : list T) (i : nat) (x : T) : list T := put v i x.
  (** length2, :45 *)
  Definition av_length2 (v : list T) : T := v$0 * v$0 + v$1 * v$1 + v$2 * v$2.
  (** length, :43 *)
  Definition av_length (v : list T) : T := nsqrt (v$0 * v$0 + v$1 * v$1 + v$2 * v$2).
  (** normalize, :47-53: three divisions in place *)
  Definition av_normalize (v : list T) : list T :=
    let l := av_length v in
    let v := put v 0 (v$0 / l) in
    let v := put v 1 (v$1 / l) in
    put v 2 (v$2 / l).
  (** dot, :55 *)
  Definition av_dot (v w : list T) : T := v$0 * w$0 + v$1 * w$1 + v$2 * w$2.
  (** operator+, :57-60; operator-, :62-65; operator*, :67 and :77; operator/, :69; unary minus, :79 *)
  Definition av_add (v w : list T) : list T := av (v$0 + w$0) (v$1 + w$1) (v$2 + w$2).
  Definition av_sub (v w : list T) : list T := av (v$0 - w$0) (v$1 - w$1) (v$2 - w$2).
  Definition av_scale (v : list T) (f : T) : list T := av (v$0 * f) (v$1 * f) (v$2 * f).
  Definition av_divs (v : list T) (f : T) : list T := av (v$0 / f) (v$1 / f) (v$2 / f).
  Definition av_opp (v : list T) : list T := av (- v$0) (- v$1) (- v$2).

  (** ** Matrix3x3, matrix.h:85-163 *)
  (** the assignments of setRPY, :109-130 and :259-281, on an array of nine *)
  Definition arr_rpy (a : list T) (roll pitch yaw : T) : list T :=
    let ci := ncos roll in let cj := ncos pitch in let ch := ncos yaw in
    let si := nsin roll in let sj := nsin pitch in let sh := nsin yaw in
    let cc := ci * ch in let cs := ci * sh in let sc := si * ch in let ss := si * sh in
    let a := put a 0 (cj * ch) in
    let a := put a 1 (sj * sc - cs) in
    let a := put a 2 (sj * cc + ss) in
    let a := put a 3 (cj * sh) in
    let a := put a 4 (sj * ss + cc) in
    let a := put a 5 (sj * cs - sc) in
    let a := put a 6 (- sj) in
    let a := put a 7 (cj * si) in
    put a 8 (cj * ci).
  (** getRow, :132: reads m_[3i .. 3i+2], outside the array for i > 2 *)
  Definition am_row (m : list T) (i : nat) : outcome (list T) :=
    let rd k := match nth_error m k with Some x => Ret x | None => UB end in
    let* x := rd (i * 3)%nat in let* y := rd (i * 3 + 1)%nat in let* z := rd (i * 3 + 2)%nat in Ret (av x y z).
  (** operator* (matrix), :134-145 *)
  Definition am_mul (m n : list T) : list T :=
    [ m$0 * n$0 + m$1 * n$3 + m$2 * n$6; m$0 * n$1 + m$1 * n$4 + m$2 * n$7; m$0 * n$2 + m$1 * n$5 + m$2 * n$8;
      m$3 * n$0 + m$4 * n$3 + m$5 * n$6; m$3 * n$1 + m$4 * n$4 + m$5 * n$7; m$3 * n$2 + m$4 * n$5 + m$5 * n$8;
      m$6 * n$0 + m$7 * n$3 + m$8 * n$6; m$6 * n$1 + m$7 * n$4 + m$8 * n$7; m$6 * n$2 + m$7 * n$5 + m$8 * n$8 ].
  (** operator* (vector), :147-152 *)
  Definition am_mulv (m v : list T) : list T :=
    av (m$0 * v$0 + m$1 * v$1 + m$2 * v$2) (m$3 * v$0 + m$4 * v$1 + m$5 * v$2) (m$6 * v$0 + m$7 * v$1 + m$8 * v$2).

  (** ** Transform, matrix.h:165-293 *)
  Record atr := ATr { a_o : list T; a_r : list T }.
  (** Transform(x, y, z, roll, pitch, yaw), :172-178; the nine entries are uninitialised before setRPY *)
  Definition at_make (r0 : list T) (x y z roll pitch yaw : T) : atr := ATr [x; y; z] (arr_rpy r0 roll pitch yaw).
  (** Transform(r, v), :208-212 *)
  Definition at_of (r v : list T) : atr := ATr v r.
  (** setRPY, :259-281 *)
  Definition at_rpy (t : atr) (roll pitch yaw : T) : atr := ATr (a_o t) (arr_rpy (a_r t) roll pitch yaw).
  (** operator* (vector), :214-219 *)
  Definition at_apply (t : atr) (v : list T) : list T :=
    let r := a_r t in let o := a_o t in
    av (r$0 * v$0 + r$1 * v$1 + r$2 * v$2 + o$0) (r$3 * v$0 + r$4 * v$1 + r$5 * v$2 + o$1) (r$6 * v$0 + r$7 * v$1 + r$8 * v$2 + o$2).
  (** operator* (transform), :221-236 *)
  Definition at_mul (a t : atr) : atr :=
    let r := a_r a in let s := a_r t in let o := a_o a in let p := a_o t in
    ATr [ r$0 * p$0 + r$1 * p$1 + r$2 * p$2 + o$0; r$3 * p$0 + r$4 * p$1 + r$5 * p$2 + o$1; r$6 * p$0 + r$7 * p$1 + r$8 * p$2 + o$2 ]
        [ r$0 * s$0 + r$1 * s$3 + r$2 * s$6; r$0 * s$1 + r$1 * s$4 + r$2 * s$7; r$0 * s$2 + r$1 * s$5 + r$2 * s$8;
          r$3 * s$0 + r$4 * s$3 + r$5 * s$6; r$3 * s$1 + r$4 * s$4 + r$5 * s$7; r$3 * s$2 + r$4 * s$5 + r$5 * s$8;
          r$6 * s$0 + r$7 * s$3 + r$8 * s$6; r$6 * s$1 + r$7 * s$4 + r$8 * s$7; r$6 * s$2 + r$7 * s$5 + r$8 * s$8 ].
  (** inverse, :242-257 *)
  Definition at_inverse (t : atr) : atr :=
    let r := a_r t in let o := a_o t in
    ATr [ (- r$0) * o$0 - r$3 * o$1 - r$6 * o$2; (- r$1) * o$0 - r$4 * o$1 - r$7 * o$2; (- r$2) * o$0 - r$5 * o$1 - r$8 * o$2 ]
        [ r$0; r$3; r$6; r$1; r$4; r$7; r$2; r$5; r$8 ].
End Matrix.
Arguments atr : clear implicits.
