(** * What the operators of the mathematical types have to do, without referring to the model
    Objects are lists of numbers in consecutive cells of a memory. *)
From Coq Require Import List Arith.
Import ListNotations.

Section SpecOps.
  Context {T : Type}.
  (** the object at address a consists of the numbers l *)
  Definition s_holds (m : nat -> T) (a : nat) (l : list T) : Prop := forall i x, nth_error l i = Some x -> m (a + i) = x.
  (** two objects of n numbers are the same object or do not overlap, as C++ objects of one class *)
  Definition s_apart (n a b : nat) : Prop := a = b \/ a + n <= b \/ b + n <= a.
  (** only the n cells from a on may have changed *)
  Definition s_frame (n a : nat) (m m' : nat -> T) : Prop := forall k, k < a \/ a + n <= k -> m' k = m k.
  (** component by component *)
  Fixpoint s_map2 (op : T -> T -> T) (l k : list T) : list T :=
    match l, k with x :: l', y :: k' => op x y :: s_map2 op l' k' | _, _ => [] end.
End SpecOps.
