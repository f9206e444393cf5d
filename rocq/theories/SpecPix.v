(** * Specification: which pixels may come back for a pixel when the projected coordinates are truncated *)
From Coq Require Import ZArith Reals.
From Flocq Require Import Core BinarySingleNaN.
From Verif Require Import Num MathTypes Depth SpecRound.
Local Open Scope R_scope.

(** a camera without translation whose parameters are finite doubles in a wide range: focal lengths between 2^-100 and 2^100, optical centre
    at most 2^40 *)
Definition s_cam_range (c : cam F64) : Prop :=
  (s_fin (c_fx c) /\ s_fin (c_fy c) /\ s_fin (c_cx c) /\ s_fin (c_cy c) /\ s_fin (c_tx c) /\ s_fin (c_ty c)) /\
  B2R (c_tx c) = 0 /\ B2R (c_ty c) = 0 /\
  bpow radix2 (- (100)) <= B2R (c_fx c) <= bpow radix2 100 /\ bpow radix2 (- (100)) <= B2R (c_fy c) <= bpow radix2 100 /\
  Rabs (B2R (c_cx c)) <= bpow radix2 40 /\ Rabs (B2R (c_cy c)) <= bpow radix2 40.
(** a depth between 2^-100 and 2^100 *)
Definition s_depth_range (d : F64) : Prop := s_fin d /\ bpow radix2 (- (100)) <= B2R d <= bpow radix2 100.
(** an int *)
Definition s_int (z : Z) : Prop := (-2147483648 <= z <= 2147483647)%Z.
(** z or its neighbour on the side of zero *)
Definition s_or_inward (z z' : Z) : Prop := z' = z \/ (z' = z - 1 /\ 0 < z)%Z \/ (z' = z + 1 /\ z < 0)%Z.
