(** * Outcomes of C++ functions: normal return, exception, undefined behaviour,
    or iteration budget exhausted (used to state termination/divergence). *)
From Coq Require Import List.

Inductive outcome (A : Type) : Type :=
| Ret (a : A)
| Exn            (* a C++ exception is thrown *)
| UB             (* undefined behaviour: out-of-range access, bad cast, ... *)
| Fuel.          (* the iteration budget given to the model ran out *)
Arguments Ret {A} _.
Arguments Exn {A}.
Arguments UB {A}.
Arguments Fuel {A}.

Definition obind {A B} (x : outcome A) (f : A -> outcome B) : outcome B :=
  match x with
  | Ret a => f a
  | Exn => Exn
  | UB => UB
  | Fuel => Fuel
  end.

Notation "'let*' x ':=' e 'in' k" := (obind e (fun x => k))
  (at level 200, x pattern, e at level 100, k at level 200, right associativity).

(** lift an option, [None] meaning undefined behaviour (e.g. vector index out of range) *)
Definition or_ub {A} (o : option A) : outcome A :=
  match o with Some a => Ret a | None => UB end.

(** existence of a returned value by computation; avoids normalising the value itself *)
Definition oret_chk {A} (o : outcome A) (chk : A -> bool) : bool :=
  match o with Ret a => chk a | _ => false end.
Lemma oret_ex : forall A (o : outcome A) (chk : A -> bool),
  oret_chk o chk = true -> exists a, o = Ret a /\ chk a = true.
Proof. intros A [a| | |] chk H; cbn in H; try discriminate. eauto. Qed.
