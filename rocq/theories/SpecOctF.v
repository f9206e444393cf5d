(** * Specification of octrees on doubles: sizes, operations and how far they may be off *)
From Coq Require Import ZArith List Bool Reals.
From Flocq Require Import Core BinarySingleNaN.
From Verif Require Import Num MathTypes Outcome Mesh Box Octree Spec SpecOctree SpecRound.
Import ListNotations.
Local Open Scope R_scope.

(** side lengths from one nanometre to 500 km; resolutions of at least one nanometre *)
Definition s_sideF (S : F64) : Prop := s_fin S /\ 1 / 1000000000 <= B2R S <= 500000.
Definition s_reqF (r : F64) : Prop := s_fin r /\ 1 / 1000000000 <= B2R r.
(** lower and upper corner of an octree of side S *)
Definition s_low (S : R) : vec3 R := V3 (- S / 2) (- S / 2) (- S / 2).
Definition s_high (S : R) : vec3 R := V3 (S / 2) (S / 2) (S / 2).
(** calls that do not clear along rays; added points lie in the octree *)
Definition s_opF (S : F64) (op : oct_op F64) : Prop :=
  match op with
  | OAdd p => s_finv p /\ s_in_box (s_low (B2R S)) (s_high (B2R S)) (rv p)
  | OSetRes r => s_reqF r
  | ORaytrace _ _ _ => False
  | _ => True
  end.
(** the same call on real numbers, with added points displaced by at most e *)
Definition s_op_close (e : R) (op : oct_op F64) (op' : oct_op R) : Prop :=
  match op, op' with
  | OAdd p, OAdd q => s_close e q (rv p)
  | OSetRes r, OSetRes r' => r' = B2R r
  | OClear, OClear | OGetMesh, OGetMesh | OGetBBox, OGetBBox | OCopy, OCopy => True
  | OSetMesh _, OSetMesh _ => True
  | _, _ => False
  end.
(** the box b is the cube of the cell (k,i,j,l) up to e *)
Definition s_cube_close (e S : R) (b : box F64) (k : nat) (i j l : Z) : Prop :=
  s_finv (b_min b) /\ s_finv (b_max b) /\
  s_close e (rv (b_min b)) (s_cmin (s_low S) S k i j l) /\ s_close e (rv (b_max b)) (s_cmax (s_low S) S k i j l).
(** S has at most 53 - m significant bits, so that all multiples of S / 2^m up to S are doubles (m >= 1) *)
Definition s_short (S : R) (m : nat) : Prop := exists M e, (0 <= M < 2 ^ (53 - Z.of_nat m))%Z /\ (-900 <= e)%Z /\ S = IZR M * bpow radix2 e.
