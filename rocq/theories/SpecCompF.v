(** * Specification of composite shapes on doubles: the tree of real boxes a construction history on doubles stands for *)
From Coq Require Import List Reals.
From Flocq Require Import Core BinarySingleNaN.
From Verif Require Import Num MathTypes Composite Spec SpecComposite SpecRound.
Import ListNotations.
Local Open Scope R_scope.

(** a pose on doubles drawn from the rigid motion t': the same translation, and a matrix within rho of the rotation *)
Definition s_pose_of (rho : R) (t : trans3 F64) (t' : trans3 R) : Prop :=
  s_finm (tR t) /\ s_finv (MathTypes.tt t) /\ rigid t' /\ MathTypes.tt t' = rv (MathTypes.tt t) /\ s_closem rho (rm (tR t)) (tR t').
(** a history on doubles and the tree of real boxes in rigid poses it is drawn from *)
Inductive s_drawn (rho : R) : ctree F64 -> ctree R -> Prop :=
| dr_box : forall mn mx, s_finv mn -> s_finv mx -> s_ordered (rv mn) (rv mx) -> s_drawn rho (TBox mn mx) (TBox (rv mn) (rv mx))
| dr_comp : forall l l', Forall2 (fun a b => s_drawn rho (fst a) (fst b) /\ s_pose_of rho (snd a) (snd b)) l l' -> s_drawn rho (TComp l) (TComp l').
(** at most k composites on the way from the root to a box *)
Inductive s_depth : nat -> ctree R -> Prop :=
| dp_box : forall k mn mx, s_depth k (TBox mn mx)
| dp_comp : forall k l, (forall t pose, In (t, pose) l -> s_depth k t) -> s_depth (S k) (TComp l).
(** every box lies in the ball of radius m around the origin, also after shifting frames about: along each path from the root to a box
    the lengths of the translations and the distance of the farthest corner add up to at most m *)
Inductive s_within : R -> ctree R -> Prop :=
| wi_box : forall m mn mx, (forall q, s_in_box mn mx q -> s_norm q <= m) -> s_within m (TBox mn mx)
| wi_comp : forall m l, 0 <= m -> (forall t pose, In (t, pose) l -> s_within (m - s_norm (MathTypes.tt pose)) t) -> s_within m (TComp l).
(** the region of a tree whose boxes are grown (or shrunk, for negative e) by e on each side *)
Inductive s_in_by (e : R) : ctree R -> vec3 R -> Prop :=
| by_box : forall mn mx p, s_in_box (V3 (vx mn - e) (vy mn - e) (vz mn - e)) (V3 (vx mx + e) (vy mx + e) (vz mx + e)) p -> s_in_by e (TBox mn mx) p
| by_comp : forall l t pose q, In (t, pose) l -> s_in_by e t q -> s_in_by e (TComp l) (tapply pose q).
(** the ray from p along u is, at distance s, in the box [mn,mx] grown by e on each side and placed in the given pose *)
Definition s_passes (e : R) (mn mx : vec3 R) (pose : trans3 R) (p u : vec3 R) (s : R) : Prop :=
  s_placed (V3 (vx mn - e) (vy mn - e) (vz mn - e)) (V3 (vx mx + e) (vy mx + e) (vz mx + e)) pose (s_ray_at p u s).
(** no component of u is below c *)
Definition s_skew (c : R) (u : vec3 R) : Prop := c <= Rabs (vx u) /\ c <= Rabs (vy u) /\ c <= Rabs (vz u).
(** the numbers a float can hold *)
Definition s_single (x : F64) : Prop := s_fin x /\ round radix2 (FLT_exp (-149) 24) ZnearestE (B2R x) = B2R x /\ Rabs (B2R x) < bpow radix2 128.
