(** * src/HeightMap.cpp and src/HeightMapNode.cpp *)
From Coq Require Import ZArith NArith List Bool.
From Verif Require Import Num MathTypes Outcome Mesh Box.
Import ListNotations.

Section HeightMap.
  Context {T : Type} {NT : Num T}.
  Local Open Scope num_scope.

  (** class HeightMapNode, HeightMapNode.h:36-43.  HNull is the null pointer. *)
  Inductive hnode := HNull | HNode (b : box T) (occ : bool) (c0 c1 c2 c3 : hnode).
  (** copy constructor and clone, HeightMapNode.cpp:19-32, 53-56 *)
  Fixpoint hnode_copy (n : hnode) : hnode :=
    match n with
    | HNull => HNull
    | HNode b o c0 c1 c2 c3 => HNode b o (hnode_copy c0) (hnode_copy c1) (hnode_copy c2) (hnode_copy c3)
    end.

  (** children_[i] && children_[i]->box_.contains(origin), HeightMapNode.cpp:82 *)
  Definition hnode_has (n : hnode) (p : vec3 T) : bool :=
    match n with HNull => false | HNode b _ _ _ _ _ => box_contains b p end.
  (** first loop of intersect, HeightMapNode.cpp:79-90: [kids] are the children with their (recursive) intersection
      function, [i] is the loop index, [io] is i_child_origin.  Result: hit, distance, i_child_origin. *)
  Fixpoint kids_origin (kids : list (hnode * (T -> bool * T))) (p : vec3 T) (i io : nat) (d : T) : bool * T * nat :=
    match kids with
    | [] => (false, d, io)
    | (c, f) :: rest =>
        if hnode_has c p then
          let (hit, d') := f d in
          if hit then (true, d', io) else kids_origin rest p (S i) i d'
        else kids_origin rest p (S i) io d
    end.
  (** second loop, HeightMapNode.cpp:92-98 *)
  Fixpoint kids_other (kids : list (hnode * (T -> bool * T))) (i io : nat) (d : T) : bool * T :=
    match kids with
    | [] => (false, d)
    | (c, f) :: rest =>
        match c with
        | HNull => kids_other rest (S i) io d
        | HNode _ _ _ _ _ _ =>
            if Nat.eqb i io then kids_other rest (S i) io d
            else let (hit, d') := f d in if hit then (true, d') else kids_other rest (S i) io d'
        end
    end.
  (** intersect, HeightMapNode.cpp:59-100; [d] is the distance output parameter *)
  Fixpoint hnode_ray (n : hnode) (r : ray T) (t0 t1 d : T) : bool * T :=
    match n with
    | HNull => (false, d)
    | HNode b occ c0 c1 c2 c3 =>
        let (hit, d) := box_ray b r t0 t1 d in
        if negb hit then (false, d)
        else if occ then (true, d)
        else
          let kids := [(c0, hnode_ray c0 r t0 t1); (c1, hnode_ray c1 r t0 t1); (c2, hnode_ray c2 r t0 t1); (c3, hnode_ray c3 r t0 t1)] in
          let '(hit, d, io) := kids_origin kids (r_o r) 0 5 d in
          if hit then (true, d) else kids_other kids 0 io d
    end.

  (** ** class HeightMap, HeightMap.h:43: the Shape base object and root_ *)
  Record hmap := HMap { hm_base : shape T; hm_root : hnode }.
  (** HeightMap(), HeightMap.cpp:14 *)
  Definition hm_new : hmap := HMap shape_new HNull.
  (** copy constructor and clone, HeightMap.cpp:16-27, 34-37 *)
  Definition hm_copy (h : hmap) : hmap := HMap (hm_base h) (hnode_copy (hm_root h)).
  (** intersect, HeightMap.cpp:39-46 *)
  Definition hm_ray (h : hmap) (r : ray T) (t0 t1 d : T) : bool * T :=
    match hm_root h with HNull => (false, d) | HNode _ _ _ _ _ _ => hnode_ray (hm_root h) r t0 t1 d end.

  (** conversion of an index to double *)
  Definition nidx (i : nat) : T := nofZ (Z.of_nat i).
  (** grid[x][y]; only used for indices whose validity was established before *)
  Definition cell_at (g : list (list T)) (x y : nat) : T := nth y (nth x g []) n0.

  (** maximum over map[mx][my] for mx_min <= mx < mx_max, my_min <= my < my_max, HeightMap.cpp:256-263.
      createQuadTree is only called on the square pow_grid with indices below its size, so the reads are total. *)
  Definition max_height (g : list (list T)) (x0 y0 x1 y1 : nat) : T :=
    fold_left (fun m x => fold_left (fun m y => nmax m (cell_at g x y)) (seq y0 (y1 - y0)) m) (seq x0 (x1 - x0)) n0.
  (** createQuadTree, HeightMap.cpp:248-294; a failing assert is an exception *)
  Fixpoint quad_tree (fuel : nat) (g : list (list T)) (x0 y0 x1 y1 : nat) (res : T) : outcome hnode :=
    match fuel with
    | O => Fuel
    | S f =>
        let h := max_height g x0 y0 x1 y1 in
        if h =? n0 then Ret HNull
        else
          let b := box_make (V3 (nidx x0 * res) (nidx y0 * res) n0) (V3 (nidx x1 * res) (nidx y1 * res) h) in
          if Nat.eqb (x1 - x0) 1 || Nat.eqb (y1 - y0) 1 then
            if Nat.eqb (x1 - x0) 1 && Nat.eqb (y1 - y0) 1 then Ret (HNode b true HNull HNull HNull HNull) else Exn
          else
            let cx := Nat.div (x1 + x0) 2 in
            let cy := Nat.div (y1 + y0) 2 in
            let* c0 := quad_tree f g x0 y0 cx cy res in
            let* c1 := quad_tree f g cx y0 x1 cy res in
            let* c2 := quad_tree f g x0 cy cx y1 res in
            let* c3 := quad_tree f g cx cy x1 y1 res in
            Ret (HNode b false c0 c1 c2 c3)
    end.

  (** while (pow_size < size) pow_size *= 2, HeightMap.cpp:55-59, on unsigned int *)
  Fixpoint pow_size (fuel : nat) (p size : N) : outcome N :=
    match fuel with
    | O => Fuel
    | S f => if N.ltb p size then pow_size f (u32 (p * 2)) size else Ret p
    end.
  (** pow_grid[mx].resize(pow_size, 0) and the copy of grid[mx][0..my_max), HeightMap.cpp:65-69 *)
  Fixpoint take_row (row : list T) (n : nat) : outcome (list T) :=
    match n, row with
    | O, _ => Ret []
    | S n', a :: r => let* l := take_row r n' in Ret (a :: l)
    | S _, [] => UB
    end.
  Fixpoint pow_rows (rows : list (list T)) (my_max p : nat) : outcome (list (list T)) :=
    match rows with
    | [] => Ret []
    | row :: r =>
        let* a := take_row row my_max in
        let* l := pow_rows r my_max p in
        Ret ((a ++ repeat n0 (p - my_max)) :: l)
    end.
  (** pow_grid, HeightMap.cpp:61-76 *)
  Definition pow_grid (g : list (list T)) (my_max p : nat) : outcome (list (list T)) :=
    let* l := pow_rows g my_max p in Ret (l ++ repeat (repeat n0 p) (p - length g)).

  (** ** the mesh of fromGrid *)
  (** four points and two triangles *)
  Definition emit4 (m : mesh T) (a b c d : vec3 T) (f : N -> N -> N -> N -> list (N * N * N)) : mesh T :=
    let (p0, m) := addPoint m a in
    let (p1, m) := addPoint m b in
    let (p2, m) := addPoint m c in
    let (p3, m) := addPoint m d in
    fold_left (fun m t => addTriangle m (fst (fst t)) (snd (fst t)) (snd t)) (f p0 p1 p2 p3) m.

  Definition eps10 : T := nlit 1 10000000000.
  (** inner loop over x2, HeightMap.cpp:101-108: first x2 in [x2, x2+n) of another height, else x2+n *)
  Fixpoint scan_x (g : list (list T)) (h : T) (y2 : nat) (n x2 : nat) : nat :=
    match n with
    | O => x2
    | S n' => if nabs (cell_at g x2 y2 - h) >? eps10 then x2 else scan_x g h y2 n' (S x2)
    end.
  (** loop over y2, HeightMap.cpp:97-110; n = my_max - y2 *)
  Fixpoint scan_y (g : list (list T)) (h : T) (mx : nat) (n y2 max_x max_y : nat) : nat * nat :=
    match n with
    | O => (max_x, max_y)
    | S n' =>
        if nabs (cell_at g mx y2 - h) <? eps10
        then scan_y g h mx n' (S y2) (scan_x g h y2 (max_x - mx) mx) (S max_y)
        else (max_x, max_y)
    end.
  (** body of the top face loop, HeightMap.cpp:89-127; visited_grid is a function *)
  Definition top_step (g : list (list T)) (res : T) (mx_max my_max : nat) (st : (nat -> nat -> bool) * mesh T) (c : nat * nat)
    : (nat -> nat -> bool) * mesh T :=
    let (visited, m) := st in
    let (mx, my) := c in
    let h := cell_at g mx my in
    if negb (visited mx my) && (h >? n0) then
      let (max_x, max_y) := scan_y g h mx (my_max - my) my mx_max my in
      let visited' := fun x y => visited x y ||
        (Nat.leb mx x && Nat.ltb x max_x && Nat.leb my y && Nat.ltb y max_y) in
      (visited', emit4 m (V3 (res * nidx mx) (res * nidx my) h) (V3 (res * nidx max_x) (res * nidx my) h)
                         (V3 (res * nidx mx) (res * nidx max_y) h) (V3 (res * nidx max_x) (res * nidx max_y) h)
                         (fun p0 p1 p2 p3 => [(p0, p1, p2); (p1, p3, p2)]))
    else (visited, m).
  (** top triangles, HeightMap.cpp:82-129 *)
  Definition top_faces (g : list (list T)) (res : T) (mx_max my_max : nat) (m : mesh T) : mesh T :=
    snd (fold_left (top_step g res mx_max my_max) (list_prod (seq 0 mx_max) (seq 0 my_max)) (fun _ _ => false, m)).

  (** body of the inner loop of the side face loops, HeightMap.cpp:139-182 and 192-237: [cell k] is (h, h2),
      [emit] adds the rectangle of a finished run; start is my_start / mx_start with None for -1 *)
  Definition side_step (cell : nat -> T * T) (emit : nat -> nat -> T -> T -> mesh T -> mesh T)
    (st : T * T * option nat * mesh T) (k : nat) : T * T * option nat * mesh T :=
    let '(h_last, h2_last, start, m) := st in
    let (h, h2) := cell k in
    let fresh := if nabs (h - h2) >? eps10 then Some k else None in
    match start with
    | Some s =>
        if (nabs (h - h_last) + nabs (h2 - h2_last)) >? eps10
        then (h, h2, fresh, emit s k h_last h2_last m)
        else (h, h2, Some s, m)
    | None => (h, h2, fresh, m)
    end.
  Definition side_line (n : nat) (cell : nat -> T * T) (emit : nat -> nat -> T -> T -> mesh T -> mesh T) (m : mesh T) : mesh T :=
    snd (fold_left (side_step cell emit) (seq 0 (S n)) (n0, n0, None, m)).
  (** h and h2 of the x-axis loop, HeightMap.cpp:141-151 *)
  Definition cell_x (g : list (list T)) (mx_max my_max mx my : nat) : T * T :=
    (if Nat.ltb mx mx_max && Nat.ltb my my_max then cell_at g mx my else n0,
     if Nat.ltb 0 mx && Nat.ltb my my_max then cell_at g (mx - 1) my else n0).
  (** side triangles x-axis, HeightMap.cpp:131-183 *)
  Definition sides_x (g : list (list T)) (res : T) (mx_max my_max : nat) (m : mesh T) : mesh T :=
    fold_left (fun m mx =>
      side_line my_max (cell_x g mx_max my_max mx)
        (fun s my h h2 m => emit4 m (V3 (res * nidx mx) (res * nidx s) h) (V3 (res * nidx mx) (res * nidx my) h)
                                    (V3 (res * nidx mx) (res * nidx s) h2) (V3 (res * nidx mx) (res * nidx my) h2)
                                    (fun p0 p1 p2 p3 => [(p1, p2, p0); (p2, p1, p3)])) m) (seq 0 (S mx_max)) m.
  (** h and h2 of the y-axis loop, HeightMap.cpp:194-204 *)
  Definition cell_y (g : list (list T)) (mx_max my_max my mx : nat) : T * T :=
    (if Nat.ltb mx mx_max && Nat.ltb my my_max then cell_at g mx my else n0,
     if Nat.ltb 0 my && Nat.ltb mx mx_max then cell_at g mx (my - 1) else n0).
  (** side triangles y-axis, HeightMap.cpp:185-239 *)
  Definition sides_y (g : list (list T)) (res : T) (mx_max my_max : nat) (m : mesh T) : mesh T :=
    fold_left (fun m my =>
      side_line mx_max (cell_y g mx_max my_max my)
        (fun s mx h h2 m => emit4 m (V3 (res * nidx s) (res * nidx my) h) (V3 (res * nidx mx) (res * nidx my) h)
                                    (V3 (res * nidx s) (res * nidx my) h2) (V3 (res * nidx mx) (res * nidx my) h2)
                                    (fun p0 p1 p2 p3 => [(p2, p1, p0); (p1, p2, p3)])) m) (seq 0 (S my_max)) m.
  Definition grid_mesh (g : list (list T)) (res : T) (mx_max my_max : nat) : mesh T :=
    sides_y g res mx_max my_max (sides_x g res mx_max my_max (top_faces g res mx_max my_max mesh_new)).

  (** fromGrid, HeightMap.cpp:48-245.  grid[0] of an empty grid and reads past the end of a short row are undefined
      behaviour (all of them happen first in the pow_grid loop).  Simplification: the grid dimensions are only truncated
      to unsigned int for the computation of pow_size; the loops run over the true sizes. *)
  Definition from_grid (fuel : nat) (g : list (list T)) (res : T) : outcome hmap :=
    match g with
    | [] => UB
    | row0 :: _ =>
        let mx_max := length g in
        let my_max := length row0 in
        let* p := pow_size fuel 1 (N.max (u32 (N.of_nat mx_max)) (u32 (N.of_nat my_max))) in
        let* pg := pow_grid g my_max (N.to_nat p) in
        let* root := quad_tree fuel pg 0 0 (N.to_nat p) (N.to_nat p) res in
        let* m := filterOverlapping (grid_mesh g res mx_max my_max) in
        Ret (HMap (Shape_ m false (V3 n0 n0 n0) (V3 n0 n0 n0)) root)
    end.
End HeightMap.
Arguments hnode : clear implicits.
Arguments hmap : clear implicits.
