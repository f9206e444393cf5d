(** * Specification for the theorems about the laser range finder on doubles *)
From Coq Require Import ZArith NArith List Reals.
From Flocq Require Import Core BinarySingleNaN.
From Verif Require Import Num MathTypes Spec SpecRound SpecLaser Libm SpecLibm.
Import ListNotations.
Local Open Scope R_scope.

(** angle limits of at most 8 radians in absolute value, and beams at least a microradian apart *)
Definition s_configF (mn mx : F64) (n : N) : Prop :=
  s_fin mn /\ s_fin mx /\ Rabs (B2R mn) <= 8 /\ Rabs (B2R mx) <= 8 /\ B2R mn < B2R mx /\ (0 < n < 2147483648)%N /\
  / 1000000 <= s_incr (B2R mn) (B2R mx) n.
(** beam i, computed from the limits the doubles denote *)
Definition s_beamF (mn mx : F64) (n : N) (i : nat) : R := s_beam (B2R mn) (B2R mx) n i.
(** direction a is at least a millionth of an increment away from every multiple of the increment, and not in the gap before the first beam *)
Definition s_off_beam (mn mx : R) (n : N) (a : R) : Prop :=
  (forall j : Z, s_incr mn mx n / 1000000 <= Rabs (a - (mn + IZR j * s_incr mn mx n))) /\ s_clear mn mx n a.
(** both end points are off the negative x axis and off the beams, and the angle between them is not within four increments of a half circle *)
Definition s_fairF (mn mx : R) (n : N) (p q : vec2 R) : Prop :=
  exists a b, s_angle p a /\ s_angle q b /\ a < PI /\ b < PI /\ s_off_beam mn mx n a /\ s_off_beam mn mx n b /\ 4 * s_incr mn mx n <= Rabs (Rabs (b - a) - PI).
(** the points denoted by two doubles, and the vector from one to the other *)
Definition s_finv2 (v : vec2 F64) : Prop := s_fin (v2x v) /\ s_fin (v2y v).
Definition s_r2 (v : vec2 F64) : vec2 R := V2 (B2R (v2x v)) (B2R (v2y v)).
Definition s_from (p q : vec2 R) : vec2 R := V2 (v2x q - v2x p) (v2y q - v2y p).
Definition s_bound2 (M : R) (v : vec2 R) : Prop := Rabs (v2x v) <= M /\ Rabs (v2y v) <= M.
(** every beam that the segment lights meets it at a distance of at least a thousandth of M, and under an angle whose sine is at least k *)
Definition s_steep (M k : R) (beam : nat -> R) (n : nat) (p q : vec2 R) : Prop :=
  forall i d, (i < n)%nat -> s_lit (beam i) p q d -> M / 1000 <= d /\ k * sqrt (s_len2 (s_from p q)) <= s_turn (V2 (cos (beam i)) (sin (beam i))) (s_from p q).
(** ranges' is ranges after drawing the segment pq: every beam it lights holds the new range, within e of the exact distance, if there was no
    range or the new one is smaller, and the old range otherwise; everything else is unchanged *)
Definition s_drawnF (beam : nat -> R) (n : nat) (p q : vec2 R) (e : nat -> R -> R) (ranges ranges' : list F64) : Prop :=
  length ranges' = length ranges /\
  forall i r, nth_error ranges i = Some r ->
    ((i < n)%nat /\ exists d D, s_lit (beam i) p q d /\ s_fin D /\ Rabs (B2R D - d) <= e i d /\
       nth_error ranges' i = Some (if (neqb r n0 || nltb D r)%bool then D else r)) \/
    (((n <= i)%nat \/ forall d, ~ s_lit (beam i) p q d) /\ nth_error ranges' i = Some r).
