(** * Specification of height maps: columns of grid cells, rectangles of the surface mesh *)
From Coq Require Import ZArith List Bool Reals.
From Verif Require Import MathTypes Spec.
Import ListNotations.
Local Open Scope R_scope.

(** the height of grid cell (x, y) *)
Definition s_height {T} (g : list (list T)) (x y : nat) (h : T) : Prop := exists row, s_nth g x = Some row /\ s_nth row y = Some h.
(** all rows have my entries *)
Definition s_rect {T} (g : list (list T)) (my : nat) : Prop := forall row, In row g -> length row = my.
(** the column of height h on grid cell (x, y) *)
Definition s_column (res : R) (x y : nat) (h : R) (p : vec3 R) : Prop :=
  INR x * res <= vx p <= (INR x + 1) * res /\ INR y * res <= vy p <= (INR y + 1) * res /\ 0 <= vz p <= h.
(** cell (x, y) lies in the index rectangle [x0,x1) x [y0,y1) *)
Definition s_covers (x0 y0 x1 y1 x y : nat) : Prop := (x0 <= x < x1 /\ y0 <= y < y1)%nat.
(** any two of the heights, and 0, are equal or differ by more than 1e-10 *)
Definition s_separated (g : list (list R)) : Prop :=
  let hs h := h = 0 \/ exists x y, s_height g x y h in
  forall a b, hs a -> hs b -> a = b \/ 1 / 10 ^ 10 < Rabs (a - b).
(** rectangles of the surface: top rectangles (index ranges and height), vertical rectangles in the plane x = i (y = i)
    over the index range [s,e), between the height h of cell i and the height h2 of cell i-1 *)
Definition s_top (res : R) (x0 y0 x1 y1 : nat) (h : R) : list (vec3 R * vec3 R * vec3 R) :=
  let p x y := V3 (INR x * res) (INR y * res) h in
  [(p x0 y0, p x1 y0, p x0 y1); (p x1 y0, p x1 y1, p x0 y1)].
Definition s_wall_x (res : R) (i s e : nat) (h h2 : R) : list (vec3 R * vec3 R * vec3 R) :=
  let p y z := V3 (INR i * res) (INR y * res) z in
  [(p e h, p s h2, p s h); (p s h2, p e h, p e h2)].
Definition s_wall_y (res : R) (i s e : nat) (h h2 : R) : list (vec3 R * vec3 R * vec3 R) :=
  let p x z := V3 (INR x * res) (INR i * res) z in
  [(p s h2, p e h, p s h); (p e h, p s h2, p e h2)].
(** height of cell (x, y), 0 outside the grid *)
Definition s_hz (g : list (list R)) (x y : Z) : R :=
  if ((x <? 0) || (y <? 0))%Z then 0
  else match s_nth g (Z.to_nat x) with
       | Some row => match s_nth row (Z.to_nat y) with Some h => h | None => 0 end
       | None => 0
       end.
(** walls: plane index, index range, heights on both sides *)
Definition s_wall := (nat * nat * nat * R * R)%type.
(** the wall w covers the edge k of plane i *)
Definition s_wall_has (i k : nat) (w : s_wall) : bool := let '(j, s, e, _, _) := w in (Nat.eqb i j && (Nat.leb s k && Nat.ltb k e))%bool.
(** the walls W are those of the height profile [cell] (heights on both sides of edge k of plane i), for planes 0..ni and
    edges 0..nk-1: every wall is proper and has the heights of all its edges, and every edge between different heights is
    covered exactly once *)
Definition s_walls (cell : nat -> nat -> R * R) (ni nk : nat) (W : list s_wall) : Prop :=
  (forall i s e h h2, In (i, s, e, h, h2) W -> (i <= ni)%nat /\ (s < e <= nk)%nat /\ h <> h2 /\ forall k, (s <= k < e)%nat -> cell i k = (h, h2)) /\
  forall i k, (i <= ni)%nat -> (k < nk)%nat ->
    length (filter (s_wall_has i k) W) = if Req_EM_T (fst (cell i k)) (snd (cell i k)) then 0%nat else 1%nat.
(** top rectangles: index ranges and height; [tol] is the tolerance on the heights *)
Definition s_tops (g : list (list R)) (mx my : nat) (tol : R) (W : list (nat * nat * nat * nat * R)) : Prop :=
  (forall x0 y0 x1 y1 h, In (x0, y0, x1, y1, h) W -> (x0 < x1 <= mx)%nat /\ (y0 < y1 <= my)%nat /\ 0 < h /\ s_height g x0 y0 h /\
     forall x y, s_covers x0 y0 x1 y1 x y -> exists h', s_height g x y h' /\ Rabs (h' - h) <= tol) /\
  forall x y h, s_height g x y h -> 0 < h -> exists x0 y0 x1 y1 h', In (x0, y0, x1, y1, h') W /\ s_covers x0 y0 x1 y1 x y.
(** corners at most 2 mm apart in every coordinate *)
Definition s_near (p q : vec3 R) : Prop :=
  Rabs (vx p - vx q) < 2 / 1000 /\ Rabs (vy p - vy q) < 2 / 1000 /\ Rabs (vz p - vz q) < 2 / 1000.
Definition s_near3 (a b : vec3 R * vec3 R * vec3 R) : Prop :=
  let '(a1, a2, a3) := a in let '(b1, b2, b3) := b in s_near a1 b1 /\ s_near a2 b2 /\ s_near a3 b3.
(** any two of the heights, and 0, are equal or differ by at least 2 mm *)
Definition s_coarse (g : list (list R)) : Prop :=
  let hs h := h = 0 \/ exists x y, s_height g x y h in
  forall a b, hs a -> hs b -> a = b \/ 2 / 1000 <= Rabs (a - b).
