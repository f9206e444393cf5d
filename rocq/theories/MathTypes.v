(** * include/geolib/math_types.h

    Vec2T, Vec3T, Mat2T, QuaternionT, Mat3T, Transform2T and Transform3T.
    Not modelled here: the operator<< stream printers, the raw
    operator[] references (modelled as pure getters/setters where used); assignments,
    compound assignments, comparisons of matrices and element access are in Operators.v; int and unsigned components,
    default, filling and memcpy constructors are in IntTypes.v. *)
From Coq Require Import ZArith Bool.
From Verif Require Import Num.

Section MathTypes.
  Context {T : Type} {N : Num T} {TR : Trig T}.
  Local Open Scope num_scope.

  (** ** Vec2T, math_types.h:21-154 *)
  Record vec2 := V2 { v2x : T; v2y : T }.

  Definition v2eqb (a b : vec2) : bool := (v2x a =? v2x b) && (v2y a =? v2y b). (* :47 *)
  Definition v2dot (a b : vec2) : T := v2x a * v2x b + v2y a * v2y b.           (* :52 *)
  Definition v2cross (a b : vec2) : T := v2x a * v2y b - v2y a * v2x b.         (* :55 *)
  Definition v2add (a b : vec2) : vec2 := V2 (v2x a + v2x b) (v2y a + v2y b).   (* :58 *)
  Definition v2sub (a b : vec2) : vec2 := V2 (v2x a - v2x b) (v2y a - v2y b).   (* :61 *)
  Definition v2scale (a : vec2) (s : T) : vec2 := V2 (v2x a * s) (v2y a * s).   (* :64, :70 *)
  Definition v2divs (a : vec2) (s : T) : vec2 := V2 (v2x a / s) (v2y a / s).    (* :67 *)
  Definition v2opp (a : vec2) : vec2 := V2 (- v2x a) (- v2y a).                 (* :93 *)
  Definition v2length2 (a : vec2) : T := v2x a * v2x a + v2y a * v2y a.         (* :76 *)
  Definition v2length (a : vec2) : T := nsqrt (v2x a * v2x a + v2y a * v2y a).  (* :73 *)
  Definition v2normalized (a : vec2) : vec2 :=                                  (* :79-83, :86-91 *)
    let len := v2length a in V2 (v2x a / len) (v2y a / len).

  (** ** Vec3T, math_types.h:158-303 *)
  Record vec3 := V3 { vx : T; vy : T; vz : T }.

  Definition veqb (a b : vec3) : bool :=                                        (* :185 *)
    (vx a =? vx b) && (vy a =? vy b) && (vz a =? vz b).
  Definition vdot (a b : vec3) : T := vx a * vx b + vy a * vy b + vz a * vz b.  (* :190 *)
  Definition vcross (a b : vec3) : vec3 :=                                      (* :193 *)
    V3 (vy a * vz b - vz a * vy b) (vz a * vx b - vx a * vz b) (vx a * vy b - vy a * vx b).
  Definition vadd (a b : vec3) : vec3 := V3 (vx a + vx b) (vy a + vy b) (vz a + vz b). (* :196 *)
  Definition vsub (a b : vec3) : vec3 := V3 (vx a - vx b) (vy a - vy b) (vz a - vz b). (* :199 *)
  Definition vscale (a : vec3) (s : T) : vec3 := V3 (vx a * s) (vy a * s) (vz a * s).  (* :202, :208 *)
  Definition vdivs (a : vec3) (s : T) : vec3 := V3 (vx a / s) (vy a / s) (vz a / s).   (* :205 *)
  Definition vopp (a : vec3) : vec3 := V3 (- vx a) (- vy a) (- vz a).           (* :232 *)
  Definition vlength2 (a : vec3) : T := vx a * vx a + vy a * vy a + vz a * vz a. (* :214 *)
  Definition vlength (a : vec3) : T :=                                          (* :211 *)
    nsqrt (vx a * vx a + vy a * vy a + vz a * vz a).
  Definition vnormalized (a : vec3) : vec3 :=                                   (* :217-221, :224-230 *)
    let len := vlength a in V3 (vx a / len) (vy a / len) (vz a / len).
  (** component access m[i], :181-183; any index other than 0,1 reads z (the code only uses 0..2) *)
  Definition vget (a : vec3) (i : nat) : T :=
    match i with 0%nat => vx a | 1%nat => vy a | _ => vz a end.
  Definition vset (a : vec3) (i : nat) (s : T) : vec3 :=
    match i with
    | 0%nat => V3 s (vy a) (vz a)
    | 1%nat => V3 (vx a) s (vz a)
    | _ => V3 (vx a) (vy a) s
    end.
  Definition vproj2 (a : vec3) : vec2 := V2 (vx a) (vy a).                      (* :286 *)
  Definition v2proj3 (a : vec2) : vec3 := V3 (v2x a) (v2y a) n0.                (* :137 *)

  (** ** Mat2T, math_types.h:307-390 *)
  Record mat2 := M2 { m2xx : T; m2xy : T; m2yx : T; m2yy : T }.

  Definition m2mulv (m : mat2) (v : vec2) : vec2 :=                             (* :344 *)
    V2 (m2xx m * v2x v + m2xy m * v2y v) (m2yx m * v2x v + m2yy m * v2y v).
  Definition m2mul (a b : mat2) : mat2 :=                                       (* :347-350 *)
    M2 (m2xx a * m2xx b + m2xy a * m2yx b) (m2xx a * m2xy b + m2xy a * m2yy b)
       (m2yx a * m2xx b + m2yy a * m2yx b) (m2yx a * m2xy b + m2yy a * m2yy b).
  Definition m2transpose (m : mat2) : mat2 := M2 (m2xx m) (m2yx m) (m2xy m) (m2yy m). (* :352 *)
  Definition m2identity : mat2 := M2 n1 n0 n0 n1.                               (* :367 *)

  (** ** QuaternionT, math_types.h:394-479 *)
  Record quat := Q { qx : T; qy : T; qz : T; qw : T }.

  Definition qdot (a b : quat) : T :=                                           (* :425 *)
    qx a * qx b + qy a * qy b + qz a * qz b + qw a * qw b.
  Definition qscale (a : quat) (s : T) : quat :=                                (* :438, :440 *)
    Q (qx a * s) (qy a * s) (qz a * s) (qw a * s).
  Definition qlength2 (a : quat) : T :=                                         (* :446 *)
    qx a * qx a + qy a * qy a + qz a * qz a + qw a * qw a.
  Definition qlength (a : quat) : T :=                                          (* :443 *)
    nsqrt (qx a * qx a + qy a * qy a + qz a * qz a + qw a * qw a).
  Definition qnormalized (a : quat) : quat :=                                   (* :449-453 *)
    let len := qlength a in Q (qx a / len) (qy a / len) (qz a / len) (qw a / len).
  Definition qset (q : quat) (i : nat) (s : T) : quat :=                        (* q.m[i] = s, :477 *)
    match i with
    | 0%nat => Q s (qy q) (qz q) (qw q)
    | 1%nat => Q (qx q) s (qz q) (qw q)
    | 2%nat => Q (qx q) (qy q) s (qw q)
    | _ => Q (qx q) (qy q) (qz q) s
    end.

  (** ** Mat3T, math_types.h:483-710 *)
  Record mat3 := M3 { mxx : T; mxy : T; mxz : T;
                      myx : T; myy : T; myz : T;
                      mzx : T; mzy : T; mzz : T }.

  (** m[i], row-major view of the union, :678-685 *)
  Definition m3get (m : mat3) (i : nat) : T :=
    match i with
    | 0%nat => mxx m | 1%nat => mxy m | 2%nat => mxz m
    | 3%nat => myx m | 4%nat => myy m | 5%nat => myz m
    | 6%nat => mzx m | 7%nat => mzy m | _ => mzz m
    end.
  (** constructor from the three columns, :501-504 *)
  Definition m3cols (x y z : vec3) : mat3 :=
    M3 (vx x) (vx y) (vx z) (vy x) (vy y) (vy z) (vz x) (vz y) (vz z).
  Definition m3add (a b : mat3) : mat3 :=                                       (* :538-541 *)
    M3 (mxx a + mxx b) (mxy a + mxy b) (mxz a + mxz b)
       (myx a + myx b) (myy a + myy b) (myz a + myz b)
       (mzx a + mzx b) (mzy a + mzy b) (mzz a + mzz b).
  Definition m3sub (a b : mat3) : mat3 :=                                       (* :544-547 *)
    M3 (mxx a - mxx b) (mxy a - mxy b) (mxz a - mxz b)
       (myx a - myx b) (myy a - myy b) (myz a - myz b)
       (mzx a - mzx b) (mzy a - mzy b) (mzz a - mzz b).
  Definition m3mulv (m : mat3) (v : vec3) : vec3 :=                             (* :549-552 *)
    V3 (mxx m * vx v + mxy m * vy v + mxz m * vz v)
       (myx m * vx v + myy m * vy v + myz m * vz v)
       (mzx m * vx v + mzy m * vy v + mzz m * vz v).
  Definition m3mul (a b : mat3) : mat3 :=                                       (* :554-565 *)
    M3 (mxx a * mxx b + mxy a * myx b + mxz a * mzx b)
       (mxx a * mxy b + mxy a * myy b + mxz a * mzy b)
       (mxx a * mxz b + mxy a * myz b + mxz a * mzz b)
       (myx a * mxx b + myy a * myx b + myz a * mzx b)
       (myx a * mxy b + myy a * myy b + myz a * mzy b)
       (myx a * mxz b + myy a * myz b + myz a * mzz b)
       (mzx a * mxx b + mzy a * myx b + mzz a * mzx b)
       (mzx a * mxy b + mzy a * myy b + mzz a * mzy b)
       (mzx a * mxz b + mzy a * myz b + mzz a * mzz b).
  Definition m3scale (m : mat3) (s : T) : mat3 :=                               (* :568, :578-581 *)
    M3 (mxx m * s) (mxy m * s) (mxz m * s)
       (myx m * s) (myy m * s) (myz m * s)
       (mzx m * s) (mzy m * s) (mzz m * s).
  Definition m3transpose (m : mat3) : mat3 :=                                   (* :583 *)
    M3 (mxx m) (myx m) (mzx m) (mxy m) (myy m) (mzy m) (mxz m) (myz m) (mzz m).
  Definition m3row (m : mat3) (i : nat) : vec3 :=                               (* :585 *)
    V3 (m3get m (i * 3)%nat) (m3get m (i * 3 + 1)%nat) (m3get m (i * 3 + 2)%nat).
  Definition m3column (m : mat3) (i : nat) : vec3 :=                            (* :587 *)
    V3 (m3get m i) (m3get m (3 + i)%nat) (m3get m (6 + i)%nat).
  Definition m3identity : mat3 := M3 n1 n0 n0 n0 n1 n0 n0 n0 n1.                (* :612 *)

  (** setRPY, :589-610 *)
  Definition m3rpy (roll pitch yaw : T) : mat3 :=
    let ci := ncos roll in
    let cj := ncos pitch in
    let ch := ncos yaw in
    let si := nsin roll in
    let sj := nsin pitch in
    let sh := nsin yaw in
    let cc := ci * ch in
    let cs := ci * sh in
    let sc := si * ch in
    let ss := si * sh in
    M3 (cj * ch) (sj * sc - cs) (sj * cc + ss)
       (cj * sh) (sj * ss + cc) (sj * cs - sc)
       (- sj)    (cj * si)      (cj * ci).

  (** getRotation, :614-642.  [q0] is the incoming value of the output parameter. *)
  Definition m3getRotation (m : mat3) (q0 : quat) : quat :=
    let trace := mxx m + myy m + mzz m in
    if trace >? n0 then
      let s := nsqrt (trace + n1) in
      let q := qset q0 3 (s / n2) in
      let s := nlit 5 10 / s in
      let q := qset q 0 ((mzy m - myz m) * s) in
      let q := qset q 1 ((mxz m - mzx m) * s) in
      qset q 2 ((myx m - mxy m) * s)
    else
      let i := if mxx m <? myy m then (if myy m <? mzz m then 2%nat else 1%nat)
               else (if mxx m <? mzz m then 2%nat else 0%nat) in
      let j := ((i + 1) mod 3)%nat in
      let k := ((i + 2) mod 3)%nat in
      let s := nsqrt (m3get m (i * 4)%nat - m3get m (j * 4)%nat - m3get m (k * 4)%nat + n1) in
      let q := qset q0 i (s / n2) in
      let s := nlit 5 10 / s in
      let q := qset q 3 ((m3get m (k * 3 + j)%nat - m3get m (j * 3 + k)%nat) * s) in
      let q := qset q j ((m3get m (j * 3 + i)%nat + m3get m (i * 3 + j)%nat) * s) in
      qset q k ((m3get m (k * 3 + i)%nat + m3get m (i * 3 + k)%nat) * s).

  (** setRotation, :644-662 *)
  Definition m3setRotation (q : quat) : mat3 :=
    let d := qlength2 q in
    let s := n2 / d in
    let xs := qx q * s in let ys := qy q * s in let zs := qz q * s in
    let wx := qw q * xs in let wy := qw q * ys in let wz := qw q * zs in
    let xx := qx q * xs in let xy := qx q * ys in let xz := qx q * zs in
    let yy := qy q * ys in let yz := qy q * zs in let zz := qz q * zs in
    M3 (n1 - (yy + zz)) (xy - wz) (xz + wy)
       (xy + wz) (n1 - (xx + zz)) (yz - wx)
       (xz - wy) (yz + wx) (n1 - (xx + yy)).

  Definition m3proj2 (m : mat3) : mat2 := M2 (mxx m) (mxy m) (myx m) (myy m).   (* :668 *)
  Definition m2proj3 (m : mat2) : mat3 :=                                       (* :373 *)
    M3 (m2xx m) (m2xy m) n0 (m2yx m) (m2yy m) n0 n0 n0 n1.

  (** normalize (in place), :687-701 *)
  Definition m3normalize (m : mat3) : mat3 :=
    let len_x := vlength (m3column m 0) in
    let len_y := vlength (m3column m 1) in
    let len_z := vlength (m3column m 2) in
    M3 (mxx m / len_x) (mxy m / len_y) (mxz m / len_z)
       (myx m / len_x) (myy m / len_y) (myz m / len_z)
       (mzx m / len_x) (mzy m / len_y) (mzz m / len_z).

  (** normalized, :703-709 *)
  Definition m3normalized (m : mat3) : mat3 :=
    m3cols (vnormalized (m3column m 0)) (vnormalized (m3column m 1)) (vnormalized (m3column m 2)).

  (** ** Transform2T, math_types.h:714-789 *)
  Record trans2 := T2 { t2R : mat2; t2t : vec2 }.

  Definition t2apply (tr : trans2) (v : vec2) : vec2 := v2add (m2mulv (t2R tr) v) (t2t tr). (* :737 *)
  Definition t2mul (a b : trans2) : trans2 :=                                   (* :739 *)
    T2 (m2mul (t2R a) (t2R b)) (v2add (m2mulv (t2R a) (t2t b)) (t2t a)).
  Definition t2inverse (a : trans2) : trans2 :=                                 (* :754-758 *)
    let inv := m2transpose (t2R a) in T2 inv (m2mulv inv (v2opp (t2t a))).
  Definition t2inverseTimes (a b : trans2) : trans2 := t2mul (t2inverse a) b.   (* :741-745 *)
  Definition t2rot (yaw : T) : mat2 :=                                          (* setRotation, :760-769 *)
    let c := ncos yaw in let s := nsin yaw in M2 c (- s) s c.
  Definition t2make (x y yaw : T) : trans2 := T2 (t2rot yaw) (V2 x y).          (* :721 *)
  Definition t2rotation (a : trans2) : T := natan2 (m2yx (t2R a)) (m2xx (t2R a)). (* :771 *)
  Definition t2identity : trans2 := T2 m2identity (V2 n0 n0).                   (* :773 *)

  (** ** Transform3T, math_types.h:793-892 *)
  Record trans3 := T3 { tR : mat3; tt : vec3 }.

  Definition tapply (tr : trans3) (v : vec3) : vec3 := vadd (m3mulv (tR tr) v) (tt tr). (* :820 *)
  Definition tmul (a b : trans3) : trans3 :=                                    (* :822 *)
    T3 (m3mul (tR a) (tR b)) (vadd (m3mulv (tR a) (tt b)) (tt a)).
  Definition tinverse (a : trans3) : trans3 :=                                  (* :844-848 *)
    let inv := m3transpose (tR a) in T3 inv (m3mulv inv (vopp (tt a))).
  Definition tinverseTimes (a b : trans3) : trans3 := tmul (tinverse a) b.      (* :824-828 *)
  Definition tmake (x y z roll pitch yaw : T) : trans3 :=                       (* :800 *)
    T3 (m3rpy roll pitch yaw) (V3 x y z).
  Definition tidentity : trans3 := T3 m3identity (V3 n0 n0 n0).                 (* :876 *)
  Definition tgetQuaternion (a : trans3) : quat :=                              (* :832-837 *)
    m3getRotation (tR a) (Q n0 n0 n0 n0).
  (** getRPY, :852-867; returns (roll, pitch, yaw) *)
  Definition tgetRPY (a : trans3) : T * T * T :=
    let R := tR a in
    let epsilon := nlit 1 1000000000000 in
    let pitch := natan2 (- mzx R) (nsqrt (mzy R * mzy R + mzz R * mzz R)) in
    if nabs (pitch - npi / n2) <? epsilon then
      let yaw := natan2 (- mxy R) (myy R) in
      (n0, pitch, yaw)
    else
      let roll := natan2 (mzy R) (mzz R) in
      let yaw := natan2 (myx R) (mxx R) in
      (roll, pitch, yaw).
  Definition tgetYaw (a : trans3) : T := snd (tgetRPY a).                       (* :869-874 *)
  Definition tproj2 (a : trans3) : trans2 := T2 (m3proj2 (tR a)) (vproj2 (tt a)). (* :882 *)
  Definition t2proj3 (a : trans2) : trans3 := T3 (m2proj3 (t2R a)) (v2proj3 (t2t a)). (* :779 *)
End MathTypes.

Arguments vec2 : clear implicits.
Arguments vec3 : clear implicits.
Arguments mat2 : clear implicits.
Arguments mat3 : clear implicits.
Arguments quat : clear implicits.
Arguments trans2 : clear implicits.
Arguments trans3 : clear implicits.
