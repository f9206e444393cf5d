(** * include/geolib/math_types.h: the operators that MathTypes.v leaves out
    Assignments and compound assignments take references, which may refer to the object itself, so they are modelled on a
    memory of cells.  An object of n numbers at address a occupies the cells a, ..., a+n-1, in the order of its union
    (x, y, z / m[]).  Simplification: all objects are made of the same scalar type. *)
From Coq Require Import ZArith List Bool.
From Verif Require Import Num MathTypes Outcome.
Import ListNotations.

Section Operators.
  Context {T : Type} {NT : Num T}.
  Local Open Scope num_scope.

  Definition mem := nat -> T.
  Definition st (m : mem) (a : nat) (x : T) : mem := fun k => if Nat.eqb k a then x else m k.
  (** the statements x op= v.x; y op= v.y; ... for the components i, i+1, ..., i+n-1 of the objects at a and b *)
  Fixpoint each (op : T -> T -> T) (n i a b : nat) (m : mem) : mem :=
    match n with O => m | S n' => each op n' (S i) a b (st m (a + i)%nat (op (m (a + i)%nat) (m (b + i)%nat))) end.
  (** the statements x op= s; y op= s; ... with a scalar passed by value *)
  Fixpoint eachs (op : T -> T -> T) (n i a : nat) (s : T) (m : mem) : mem :=
    match n with O => m | S n' => eachs op n' (S i) a s (st m (a + i)%nat (op (m (a + i)%nat) s)) end.
  (** operator= : nothing happens on self-assignment *)
  Definition assign (n a b : nat) (m : mem) : mem := if Nat.eqb a b then m else each (fun _ y => y) n 0 a b m.
  Definition v2_assign := assign 2.                          (* :31-39 *)
  Definition v3_assign := assign 3.                          (* :168-177 *)
  Definition m2_assign := assign 4.                          (* :316-326 *)
  Definition q_assign := assign 4.                           (* :402-412 *)
  Definition m3_assign := assign 9.                          (* :506-521 *)
  Definition v2_addeq := each nadd 2 0.                      (* :95-100 *)
  Definition v2_subeq := each nsub 2 0.                      (* :101-106 *)
  Definition v2_muleq := each nmul 2 0.                      (* :107-112 *)
  Definition v2_diveq := each ndiv 2 0.                      (* :113-118 *)
  Definition v2_muls := eachs nmul 2 0.                      (* :120-125 *)
  Definition v2_divs := eachs ndiv 2 0.                      (* :126-131 *)
  Definition v3_addeq := each nadd 3 0.                      (* :234-240 *)
  Definition v3_subeq := each nsub 3 0.                      (* :241-247 *)
  Definition v3_muleq := each nmul 3 0.                      (* :248-254 *)
  Definition v3_diveq := each ndiv 3 0.                      (* :255-261 *)
  Definition v3_muls := eachs nmul 3 0.                      (* :263-269 *)
  Definition v3_divs := eachs ndiv 3 0.                      (* :270-276 *)
  (** the values of the objects at an address *)
  Definition ld2 (m : mem) (a : nat) : vec2 T := V2 (m a) (m (a + 1)%nat).
  Definition ld3 (m : mem) (a : nat) : vec3 T := V3 (m a) (m (a + 1)%nat) (m (a + 2)%nat).
  Definition ldq (m : mem) (a : nat) : quat T := Q (m a) (m (a + 1)%nat) (m (a + 2)%nat) (m (a + 3)%nat).
  Definition ldm2 (m : mem) (a : nat) : mat2 T := M2 (m a) (m (a + 1)%nat) (m (a + 2)%nat) (m (a + 3)%nat).
  Definition ldm3 (m : mem) (a : nat) : mat3 T :=
    M3 (m a) (m (a + 1)%nat) (m (a + 2)%nat) (m (a + 3)%nat) (m (a + 4)%nat) (m (a + 5)%nat) (m (a + 6)%nat) (m (a + 7)%nat) (m (a + 8)%nat).
  (** normalize, :86-91, :224-230 and :456-463: the length is computed before the components are divided *)
  Definition v2_normalize (a : nat) (m : mem) : mem := eachs ndiv 2 0 a (v2length (ld2 m a)) m.
  Definition v3_normalize (a : nat) (m : mem) : mem := eachs ndiv 3 0 a (vlength (ld3 m a)) m.
  Definition q_normalize (a : nat) (m : mem) : mem := eachs ndiv 4 0 a (qlength (ldq m a)) m.
  (** Transform2T: R (4 cells), then t; Transform3T: R (9 cells), then t *)
  Definition ldt3 (m : mem) (a : nat) : trans3 T := T3 (ldm3 m a) (ld3 m (a + 9)).
  (** operator=, :727-735 and :806-814 *)
  Definition t2_assign (a b : nat) (m : mem) : mem := if Nat.eqb a b then m else v2_assign (a + 4) (b + 4) (m2_assign a b m).
  Definition t3_assign (a b : nat) (m : mem) : mem := if Nat.eqb a b then m else v3_assign (a + 9) (b + 9) (m3_assign a b m).
  (** setOrigin, setBasis, :751-752 and :841-842; the argument may be the transform's own member *)
  Definition t2_setOrigin (a v : nat) (m : mem) : mem := v2_assign (a + 4) v m.
  Definition t2_setBasis (a r : nat) (m : mem) : mem := m2_assign a r m.
  Definition t3_setOrigin (a v : nat) (m : mem) : mem := v3_assign (a + 9) v m.
  Definition t3_setBasis (a r : nat) (m : mem) : mem := m3_assign a r m.

  (** operator[] on an object of n cells, :43-45, :181-183, :330-332, :416-418, :525-527: the index is an unsigned int,
      beyond the array the behaviour is undefined *)
  Definition at_read (n a : nat) (i : N) (m : mem) : outcome T := if N.ltb i (N.of_nat n) then Ret (m (a + N.to_nat i)%nat) else UB.
  Definition at_write (n a : nat) (i : N) (x : T) (m : mem) : outcome mem := if N.ltb i (N.of_nat n) then Ret (st m (a + N.to_nat i)%nat x) else UB.
  (** m[k] with an int index *)
  Definition zread (n a : nat) (k : Z) (m : mem) : outcome T :=
    if (Z.leb 0 k && Z.ltb k (Z.of_nat n))%bool then Ret (m (a + Z.to_nat k)%nat) else UB.
  Definition zwrite (n a : nat) (k : Z) (x : T) (m : mem) : outcome mem :=
    if (Z.leb 0 k && Z.ltb k (Z.of_nat n))%bool then Ret (st m (a + Z.to_nat k)%nat x) else UB.
  (** operator()(i, j), :354-356 and :573-575.  Simplification: the int product does not overflow *)
  Definition m2_elem (a : nat) (i j : Z) (m : mem) : outcome T := zread 4 a (i * 2 + j)%Z m.
  Definition m2_set (a : nat) (i j : Z) (x : T) (m : mem) : outcome mem := zwrite 4 a (i * 2 + j)%Z x m.
  Definition m3_elem (a : nat) (i j : Z) (m : mem) : outcome T := zread 9 a (i * 3 + j)%Z m.
  Definition m3_set (a : nat) (i j : Z) (x : T) (m : mem) : outcome mem := zwrite 9 a (i * 3 + j)%Z x m.
  (** getRow, getColumn, :585-587, with the check of the array bounds that m3row and m3column leave out *)
  Definition m3_row (a : nat) (i : Z) (m : mem) : outcome (vec3 T) :=
    let* x := zread 9 a (i * 3)%Z m in let* y := zread 9 a (i * 3 + 1)%Z m in let* z := zread 9 a (i * 3 + 2)%Z m in Ret (V3 x y z).
  Definition m3_col (a : nat) (i : Z) (m : mem) : outcome (vec3 T) :=
    let* x := zread 9 a i m in let* y := zread 9 a (3 + i)%Z m in let* z := zread 9 a (6 + i)%Z m in Ret (V3 x y z).

  (** ** operators on values *)
  (** != is the negation of == in every class, :49, :187, :336, :422, :535, :818; Vec2T and Vec3T's == are v2eqb and veqb *)
  Definition m2eqb (a b : mat2 T) : bool :=                                       (* :334 *)
    (m2xx a =? m2xx b) && (m2xy a =? m2xy b) && (m2yx a =? m2yx b) && (m2yy a =? m2yy b).
  Definition qeqb (a b : quat T) : bool :=                                        (* :420 *)
    (qx a =? qx b) && (qy a =? qy b) && (qz a =? qz b) && (qw a =? qw b).
  Definition m3eqb (a b : mat3 T) : bool :=                                       (* :529-533 *)
    (mxx a =? mxx b) && (mxy a =? mxy b) && (mxz a =? mxz b) && (myx a =? myx b) && (myy a =? myy b) && (myz a =? myz b) &&
    (mzx a =? mzx b) && (mzy a =? mzy b) && (mzz a =? mzz b).
  Definition teqb (a b : trans3 T) : bool := m3eqb (tR a) (tR b) && veqb (tt a) (tt b).   (* :816 *)
  Definition m2add (a b : mat2 T) : mat2 T :=                                     (* :339 *)
    M2 (m2xx a + m2xx b) (m2xy a + m2xy b) (m2yx a + m2yx b) (m2yy a + m2yy b).
  Definition m2sub (a b : mat2 T) : mat2 T :=                                     (* :342 *)
    M2 (m2xx a - m2xx b) (m2xy a - m2xy b) (m2yx a - m2yx b) (m2yy a - m2yy b).
  Definition m2scale (a : mat2 T) (s : T) : mat2 T :=                             (* :359, :365 *)
    M2 (m2xx a * s) (m2xy a * s) (m2yx a * s) (m2yy a * s).
  Definition m2divs (a : mat2 T) (s : T) : mat2 T :=                              (* :362 *)
    M2 (m2xx a / s) (m2xy a / s) (m2yx a / s) (m2yy a / s).
  Definition m3divs (a : mat3 T) (s : T) : mat3 T :=                              (* :571 *)
    M3 (mxx a / s) (mxy a / s) (mxz a / s) (myx a / s) (myy a / s) (myz a / s) (mzx a / s) (mzy a / s) (mzz a / s).
  Definition qadd (a b : quat T) : quat T := Q (qx a + qx b) (qy a + qy b) (qz a + qz b) (qw a + qw b).   (* :428 *)
  Definition qsub (a b : quat T) : quat T := Q (qx a - qx b) (qy a - qy b) (qz a - qz b) (qw a - qw b).   (* :431 *)
End Operators.
