(** * Number operations used by geolib2

    /repo computes with C++ [double] ([typedef double real],
    include/geolib/math_types.h:10) and, in the rasterisers, with [float].
    The model is written once over the record [Num] of operations below and is
    instantiated with the reals ([NumR], ideal arithmetic) and with IEEE-754
    binary64 as formalised by Flocq ([NumF], round to nearest even). *)
From Coq Require Import ZArith Reals Bool List Lia.
From Flocq Require Import Core.Raux Core.Zaux Core.Generic_fmt.
From Flocq Require Import IEEE754.BinarySingleNaN.

Class Num (T : Type) := {
  nadd : T -> T -> T;          (* a + b *)
  nsub : T -> T -> T;          (* a - b *)
  nmul : T -> T -> T;          (* a * b *)
  ndiv : T -> T -> T;          (* a / b *)
  nopp : T -> T;               (* -a *)
  nabs : T -> T;               (* std::abs / std::fabs *)
  nsqrt : T -> T;              (* std::sqrt *)
  nltb : T -> T -> bool;       (* a < b  (false on NaN) *)
  nleb : T -> T -> bool;       (* a <= b (false on NaN) *)
  neqb : T -> T -> bool;       (* a == b (false on NaN) *)
  nofZ : Z -> T;               (* integer literal / conversion from an integer type *)
  nf32 : T -> T;               (* static_cast<float>, value converted back to T *)
  ntrunc : T -> option Z       (* truncation towards zero; None for NaN and infinities *)
}.

(** Trigonometry is only used in the ideal model (libm's rounding is not modelled). *)
Class Trig (T : Type) := {
  nsin : T -> T;
  ncos : T -> T;
  natan2 : T -> T -> T;        (* std::atan2(y, x) *)
  npi : T                      (* M_PI *)
}.

Declare Scope num_scope.
Delimit Scope num_scope with num.
Infix "+" := nadd : num_scope.
Infix "-" := nsub : num_scope.
Infix "*" := nmul : num_scope.
Infix "/" := ndiv : num_scope.
Notation "- x" := (nopp x) : num_scope.
Infix "<?" := nltb : num_scope.
Infix "<=?" := nleb : num_scope.
Infix "=?" := neqb : num_scope.
Notation "a >? b" := (nltb b a) (at level 70, only parsing) : num_scope.
Notation "a >=? b" := (nleb b a) (at level 70, only parsing) : num_scope.

Section Derived.
  Context {T : Type} {N : Num T}.
  Local Open Scope num_scope.

  Definition n0 : T := nofZ 0.
  Definition n1 : T := nofZ 1.
  Definition n2 : T := nofZ 2.

  (** decimal literal [m / d], d a power of ten, e.g. 1e-9 = nlit 1 1000000000; both integers
      are exact in binary64 for every literal used in /repo, so the single division is
      correctly rounded *)
  Definition nlit (m d : Z) : T := nofZ m / nofZ d.

  (** std::max(a,b) = (a < b) ? b : a   and   std::min(a,b) = (b < a) ? b : a *)
  Definition nmax (a b : T) : T := if a <? b then b else a.
  Definition nmin (a b : T) : T := if b <? a then b else a.

  (** static_cast<int>: undefined behaviour ([None]) outside the range of int *)
  Definition toint (x : T) : option Z :=
    match ntrunc x with
    | Some z => if (Z.leb (-2147483648) z && Z.leb z 2147483647)%bool then Some z else None
    | None => None
    end.
End Derived.

(** ** Real instance *)
Definition Rltb (x y : R) : bool := if Rlt_dec x y then true else false.
Definition Rleb (x y : R) : bool := if Rle_dec x y then true else false.
Definition Reqb (x y : R) : bool := if Req_EM_T x y then true else false.

#[global] Instance NumR : Num R := {
  nadd := Rplus; nsub := Rminus; nmul := Rmult; ndiv := Rdiv; nopp := Ropp;
  nabs := Rabs; nsqrt := sqrt; nltb := Rltb; nleb := Rleb; neqb := Reqb;
  nofZ := IZR; nf32 := fun x => x; ntrunc := fun x => Some (Ztrunc x)
}.

(** std::atan2 on exact reals (signed zeros identified, atan2(0,0) = 0). *)
Definition Ratan2 (y x : R) : R :=
  if Rlt_dec 0 x then atan (y / x)
  else if Rlt_dec x 0 then
    (if Rle_dec 0 y then atan (y / x) + PI else atan (y / x) - PI)%R
  else if Rlt_dec 0 y then (PI / 2)%R
  else if Rlt_dec y 0 then (- (PI / 2))%R
  else 0%R.

#[global] Instance TrigR : Trig R := {
  nsin := sin; ncos := cos; natan2 := Ratan2; npi := PI
}.

(** ** IEEE-754 binary64 instance *)
Lemma prec64_gt0 : FLX.Prec_gt_0 53. Proof. reflexivity. Qed.
Lemma emax64_gt : Prec_lt_emax 53 1024. Proof. reflexivity. Qed.
Lemma prec32_gt0 : FLX.Prec_gt_0 24. Proof. reflexivity. Qed.
Lemma emax32_gt : Prec_lt_emax 24 128. Proof. reflexivity. Qed.

Definition F64 := binary_float 53 1024.
Definition F32 := binary_float 24 128.

Definition f64_of_Z (z : Z) : F64 :=
  binary_normalize 53 1024 prec64_gt0 emax64_gt mode_NE z 0 false.

(** value conversions between the two formats (round to nearest even) *)
Definition f64_to_f32 (x : F64) : F32 :=
  match x with
  | B754_zero s => B754_zero s
  | B754_infinity s => B754_infinity s
  | B754_nan => B754_nan
  | B754_finite s m e _ =>
      binary_normalize 24 128 prec32_gt0 emax32_gt mode_NE (cond_Zopp s (Zpos m)) e s
  end.
Definition f32_to_f64 (x : F32) : F64 :=
  match x with
  | B754_zero s => B754_zero s
  | B754_infinity s => B754_infinity s
  | B754_nan => B754_nan
  | B754_finite s m e _ =>
      binary_normalize 53 1024 prec64_gt0 emax64_gt mode_NE (cond_Zopp s (Zpos m)) e s
  end.

Definition f64_trunc (x : F64) : option Z :=
  if is_finite x then Some (Btrunc x) else None.

#[global] Instance NumF : Num F64 := {
  nadd := @Bplus 53 1024 prec64_gt0 emax64_gt mode_NE;
  nsub := @Bminus 53 1024 prec64_gt0 emax64_gt mode_NE;
  nmul := @Bmult 53 1024 prec64_gt0 emax64_gt mode_NE;
  ndiv := @Bdiv 53 1024 prec64_gt0 emax64_gt mode_NE;
  nopp := @Bopp 53 1024;
  nabs := @Babs 53 1024;
  nsqrt := @Bsqrt 53 1024 prec64_gt0 emax64_gt mode_NE;
  nltb := @Bltb 53 1024;
  nleb := @Bleb 53 1024;
  neqb := @Beqb 53 1024;
  nofZ := f64_of_Z;
  nf32 := fun x => f32_to_f64 (f64_to_f32 x);
  ntrunc := f64_trunc
}.
