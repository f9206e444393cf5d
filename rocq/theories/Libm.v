(** * The trigonometric functions of the C library on doubles
    The code calls sin, cos and atan2 of <cmath> (math_types.h:589-610, :760-771, :852-867; LaserRangeFinder.cpp:361-405; shapes.cpp:22-24).
    These functions are external: a libm is any three functions on doubles, and the theorems about it state the accuracy they need.
    pi is M_PI (math_types.h:856, shapes.cpp:22), the double nearest to the literal 3.14159265358979323846, and the result of acos(-1.0)
    (LaserRangeFinder.cpp:342). *)
From Coq Require Import ZArith.
From Verif Require Import Num.
Local Open Scope num_scope.

Record libm := Libm { lm_sin : F64 -> F64; lm_cos : F64 -> F64; lm_atan2 : F64 -> F64 -> F64 }.
(** M_PI = 7074237752028440 / 2^51 *)
Definition f_pi : F64 := nofZ 7074237752028440 / nofZ 2251799813685248.
(** not an instance: the library is an argument of every theorem *)
Definition TrigF (L : libm) : Trig F64 := {| nsin := lm_sin L; ncos := lm_cos L; natan2 := lm_atan2 L; npi := f_pi |}.
