(** * Specification of octree cells: grid cells of side S / 2^k *)
From Coq Require Import ZArith List Bool Reals.
From Verif Require Import MathTypes Outcome Spec Octree.
Import ListNotations.
Local Open Scope R_scope.

Definition s_side (S : R) (k : nat) : R := S / 2 ^ k.
(** the coordinate x, measured from the lower end of the octree, falls into cell i at level k.  Cells are open below and
    closed above; the first and the last cell also take everything below and above the octree *)
Definition s_cell1 (S : R) (k : nat) (x : R) (i : Z) : Prop :=
  (0 <= i < 2 ^ Z.of_nat k)%Z /\
  (i = 0%Z \/ IZR i * s_side S k < x) /\ (i = (2 ^ Z.of_nat k - 1)%Z \/ x <= (IZR i + 1) * s_side S k).
Definition s_cell (S : R) (k : nat) (x : vec3 R) (i j l : Z) : Prop :=
  s_cell1 S k (vx x) i /\ s_cell1 S k (vy x) j /\ s_cell1 S k (vz x) l.
(** corners of the cube of a cell; [off] is the lower corner of the octree *)
Definition s_cmin (off : vec3 R) (S : R) (k : nat) (i j l : Z) : vec3 R :=
  V3 (vx off + s_side S k * IZR i) (vy off + s_side S k * IZR j) (vz off + s_side S k * IZR l).
Definition s_cmax (off : vec3 R) (S : R) (k : nat) (i j l : Z) : vec3 R :=
  V3 (vx off + s_side S k * (IZR i + 1)) (vy off + s_side S k * (IZR j + 1)) (vz off + s_side S k * (IZR l + 1)).
(** the cell (k,i,j,l) lies inside the cell (k',i',j',l') of a coarser (or equal) level *)
Definition s_sub1 (k : nat) (i : Z) (k' : nat) (i' : Z) : Prop := (i / 2 ^ Z.of_nat (k - k') = i')%Z.
Definition s_subcell (k : nat) (i j l : Z) (k' : nat) (i' j' l' : Z) : Prop :=
  (k' <= k)%nat /\ s_sub1 k i k' i' /\ s_sub1 k j k' j' /\ s_sub1 k l k' l'.
(** first level whose cells are not larger than res, up to the tolerance of 1e-10 *)
Definition s_level (S res : R) (k : nat) : Prop :=
  s_side S k < res + 1 / 10 ^ 10 /\ forall j, (j < k)%nat -> res + 1 / 10 ^ 10 <= s_side S j.
(** the largest S / 2^m not above the request *)
Definition s_resolution (S req r : R) : Prop :=
  (exists m, r = s_side S m) /\ r <= req /\ forall m, s_side S m <= req -> s_side S m <= r.
(** boxes without common interior *)
Definition s_apart (mn mx mn' mx' : vec3 R) : Prop :=
  vx mx <= vx mn' \/ vx mx' <= vx mn \/ vy mx <= vy mn' \/ vy mx' <= vy mn \/ vz mx <= vz mn' \/ vz mx' <= vz mn.

(** ** Histories: current resolution and set of added cells *)
Definition cells := nat -> Z -> Z -> Z -> Prop.
Inductive s_hist (S : R) (off : vec3 R) : R -> cells -> list (oct_op R) -> R -> cells -> Prop :=
| H_nil res A : s_hist S off res A [] res A
| H_add res A p ops res' A' :
    s_hist S off res (fun k i j l => A k i j l \/ (s_level S res k /\ s_cell S k (s_diff p off) i j l)) ops res' A' ->
    s_hist S off res A (OAdd p :: ops) res' A'
| H_clear res A ops res' A' : s_hist S off res (fun _ _ _ _ => False) ops res' A' -> s_hist S off res A (OClear :: ops) res' A'
| H_res res A req r ops res' A' : s_resolution S req r -> s_hist S off r A ops res' A' -> s_hist S off res A (OSetRes req :: ops) res' A'
| H_mesh res A ops res' A' : s_hist S off res A ops res' A' -> s_hist S off res A (OGetMesh :: ops) res' A'
| H_bbox res A ops res' A' : s_hist S off res A ops res' A' -> s_hist S off res A (OGetBBox :: ops) res' A'
| H_set res A m ops res' A' : s_hist S off res A ops res' A' -> s_hist S off res A (OSetMesh m :: ops) res' A'
| H_copy res A ops res' A' : s_hist S off res A ops res' A' -> s_hist S off res A (OCopy :: ops) res' A'.
(** cells that no coarser added cell covers *)
Definition s_uncovered (A : cells) (k : nat) (i j l : Z) : Prop :=
  A k i j l /\ forall k' i' j' l', (k' < k)%nat -> s_subcell k i j l k' i' j' l' -> ~ A k' i' j' l'.
(** octrees that some history of calls on a fresh octree of side S produces *)
Definition s_reach (S : R) (o : octree R) : Prop :=
  exists fuel req ops o0, oct_new fuel S req = Ret o0 /\ oct_run fuel o0 ops = Ret o.
(** p lies in the cube mn mx, which is open below except on the lower faces of the octree *)
Definition s_in_cell1 (off lo hi x : R) : Prop := x <= hi /\ (lo < x \/ (lo = off /\ lo <= x)).
Definition s_in_cell (off mn mx p : vec3 R) : Prop :=
  s_in_cell1 (vx off) (vx mn) (vx mx) (vx p) /\ s_in_cell1 (vy off) (vy mn) (vy mx) (vy p) /\ s_in_cell1 (vz off) (vz mn) (vz mx) (vz p).
(** the cell that the membership query looks at: the one ending at the smallest S/2^j (j <= k) that is at least x *)
Definition s_seen (S : R) (k : nat) (x : R) (i : Z) : Prop :=
  exists j, (j <= k)%nat /\ i = (2 ^ Z.of_nat (k - j) - 1)%Z /\ (j = 0%nat \/ x <= s_side S j) /\ (j = k \/ s_side S (Datatypes.S j) < x).
