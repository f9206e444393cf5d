(** * Specification of trees of boxes: the region described by a construction history *)
From Coq Require Import List Reals.
From Verif Require Import Num MathTypes Composite Spec.
Import ListNotations.
Local Open Scope R_scope.

(** *** region described by a construction history *)
Inductive s_in : ctree R -> vec3 R -> Prop :=
| in_box : forall mn mx p, s_in_box mn mx p -> s_in (TBox mn mx) p
| in_comp : forall l t pose q, In (t, pose) l -> s_in t q -> s_in (TComp l) (tapply pose q).
(** the boxes of a history with their poses *)
Inductive s_leaf : ctree R -> vec3 R -> vec3 R -> trans3 R -> Prop :=
| leaf_box : forall mn mx, s_leaf (TBox mn mx) mn mx tidentity
| leaf_comp : forall l t pose mn mx q, In (t, pose) l -> s_leaf t mn mx q -> s_leaf (TComp l) mn mx (tmul pose q).
(** all coordinate frames of a history *)
Inductive s_frame : ctree R -> trans3 R -> Prop :=
| fr_here : forall t, s_frame t tidentity
| fr_sub : forall l t pose q, In (t, pose) l -> s_frame t q -> s_frame (TComp l) (tmul pose q).
(** well formed: ordered boxes, rigid poses *)
Inductive s_wf : ctree R -> Prop :=
| wf_box : forall mn mx, s_ordered mn mx -> s_wf (TBox mn mx)
| wf_comp : forall l, (forall t pose, In (t, pose) l -> s_wf t /\ rigid pose) -> s_wf (TComp l).
Fixpoint s_nboxes (t : ctree R) : nat :=
  match t with
  | TBox _ _ => 1
  | TComp l => (fix go l := match l with [] => 0 | (t', _) :: r => s_nboxes t' + go r end) l
  end%nat.
Definition s_placed (mn mx : vec3 R) (pose : trans3 R) (p : vec3 R) : Prop :=
  exists q, s_in_box mn mx q /\ p = tapply pose q.
