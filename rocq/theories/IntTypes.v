(** * include/geolib/math_types.h: the remaining instantiations and constructors
    The typedefs with int and unsigned int (math_types.h:899-932) and the constructors that MathTypes.v and Operators.v leave out.
    The operators are those of MathTypes.v and Operators.v, instantiated with the number types below.
    Simplification: a scalar that is the result of undefined behaviour is a separate value which all arithmetic propagates; comparing it gives
    false, so only functions that do not branch are meaningful on it (the rotation functions of integer matrices are in IntRot.v). *)
From Coq Require Import ZArith List Bool.
From Verif Require Import Num MathTypes Outcome.
Import ListNotations.

(** ** int: 32 bits, two's complement, overflow and division by zero are undefined *)
Inductive cint := IVal (z : Z) | IUndef.
Definition ick (z : Z) : cint := if (Z.leb (-2147483648) z && Z.leb z 2147483647)%bool then IVal z else IUndef.
Definition iop (f : Z -> Z -> cint) (a b : cint) : cint := match a, b with IVal x, IVal y => f x y | _, _ => IUndef end.
Definition iun (f : Z -> cint) (a : cint) : cint := match a with IVal x => f x | IUndef => IUndef end.
Definition icmp (f : Z -> Z -> bool) (a b : cint) : bool := match a, b with IVal x, IVal y => f x y | _, _ => false end.
(** sqrt of an int is computed on doubles and converted back; the conversion is undefined for NaN *)
Definition isqrt (z : Z) : option Z := toint (nsqrt (nofZ z : F64)).
#[global] Instance NumI : Num cint := {
  nadd := iop (fun x y => ick (x + y));
  nsub := iop (fun x y => ick (x - y));
  nmul := iop (fun x y => ick (x * y));
  ndiv := iop (fun x y => if Z.eqb y 0 then IUndef else ick (Z.quot x y));
  nopp := iun (fun x => ick (- x));
  nabs := iun (fun x => ick (Z.abs x));
  nsqrt := iun (fun x => match isqrt x with Some r => IVal r | None => IUndef end);
  nltb := icmp Z.ltb; nleb := icmp Z.leb; neqb := icmp Z.eqb;
  nofZ := ick;
  nf32 := fun x => x;
  ntrunc := fun x => match x with IVal z => Some z | IUndef => None end
}.

(** ** unsigned int: 32 bits, arithmetic modulo 2^32, division by zero is undefined *)
Inductive cuint := UVal (z : Z) | UUndef.
Definition uck (z : Z) : cuint := UVal (z mod 4294967296).
Definition uop (f : Z -> Z -> cuint) (a b : cuint) : cuint := match a, b with UVal x, UVal y => f x y | _, _ => UUndef end.
Definition uun (f : Z -> cuint) (a : cuint) : cuint := match a with UVal x => f x | UUndef => UUndef end.
Definition ucmp (f : Z -> Z -> bool) (a b : cuint) : bool := match a, b with UVal x, UVal y => f x y | _, _ => false end.
#[global] Instance NumU : Num cuint := {
  nadd := uop (fun x y => uck (x + y));
  nsub := uop (fun x y => uck (x - y));
  nmul := uop (fun x y => uck (x * y));
  ndiv := uop (fun x y => if Z.eqb y 0 then UUndef else uck (Z.quot x y));
  nopp := uun (fun x => uck (- x));
  nabs := uun uck;
  nsqrt := uun (fun x => match isqrt x with Some r => UVal r | None => UUndef end);
  nltb := ucmp Z.ltb; nleb := ucmp Z.leb; neqb := ucmp Z.eqb;
  nofZ := uck;
  nf32 := fun x => x;
  ntrunc := fun x => match x with UVal z => Some z | UUndef => None end
}.

(** ** scalars that may be uninitialised *)
Inductive cell (T : Type) := Val (x : T) | Uninit.
Arguments Val {T}.
Arguments Uninit {T}.
Definition lift1 {T} (f : T -> T) (a : cell T) : cell T := match a with Val x => Val (f x) | Uninit => Uninit end.
Definition lift2 {T} (f : T -> T -> T) (a b : cell T) : cell T := match a, b with Val x, Val y => Val (f x y) | _, _ => Uninit end.
Definition liftb {T} (f : T -> T -> bool) (a b : cell T) : bool := match a, b with Val x, Val y => f x y | _, _ => false end.
#[global] Instance NumCell {T} {NT : Num T} : Num (cell T) := {
  nadd := lift2 nadd; nsub := lift2 nsub; nmul := lift2 nmul; ndiv := lift2 ndiv; nopp := lift1 nopp; nabs := lift1 nabs; nsqrt := lift1 nsqrt;
  nltb := liftb nltb; nleb := liftb nleb; neqb := liftb neqb; nofZ := fun z => Val (nofZ z); nf32 := lift1 nf32;
  ntrunc := fun x => match x with Val y => ntrunc y | Uninit => None end
}.

(** ** constructors *)
Section Constructors.
  Context {T : Type} {NT : Num T}.
  (** default constructors: all components are value-initialised, :25, :162, :311, :398 *)
  Definition v2_default : vec2 T := V2 n0 n0.
  Definition v3_default : vec3 T := V3 n0 n0 n0.
  Definition m2_default : mat2 T := M2 n0 n0 n0 n0.
  Definition q_default : quat T := Q n0 n0 n0 n0.
  (** Transform2T(), :718: the default constructors of the members *)
  Definition t2_default : trans2 T := T2 m2_default v2_default.
  (** Mat3T(), :487, leaves its elements uninitialised; Transform3T(), :797 *)
  Definition m3_default : mat3 (cell T) := M3 Uninit Uninit Uninit Uninit Uninit Uninit Uninit Uninit Uninit.
  Definition t3_default : trans3 (cell T) := T3 m3_default (V3 n0 n0 n0).
  (** constructors from one value, :28, :165, :314, :495-497 *)
  Definition v2_fill (x : T) : vec2 T := V2 x x.
  Definition v3_fill (x : T) : vec3 T := V3 x x x.
  Definition m2_fill (x : T) : mat2 T := M2 x x x x.
  Definition m3_fill (x : T) : mat3 T := M3 x x x x x x x x x.
  (** constructors from an array, :29, :166, :499; reading past the end is undefined *)
  Definition arr (l : list T) (i : nat) : outcome T := or_ub (nth_error l i).
  Definition v2_array (l : list T) : outcome (vec2 T) := let* x := arr l 0 in let* y := arr l 1 in Ret (V2 x y).
  Definition v3_array (l : list T) : outcome (vec3 T) := let* x := arr l 0 in let* y := arr l 1 in let* z := arr l 2 in Ret (V3 x y z).
  Definition m3_array (l : list T) : outcome (mat3 T) :=
    let* a := arr l 0 in let* b := arr l 1 in let* c := arr l 2 in
    let* d := arr l 3 in let* e := arr l 4 in let* f := arr l 5 in
    let* g := arr l 6 in let* h := arr l 7 in let* i := arr l 8 in Ret (M3 a b c d e f g h i).
End Constructors.
