(** * src/Shape.cpp: sphere intersection and point containment of mesh shapes *)
From Coq Require Import ZArith NArith List Bool.
From Verif Require Import Num MathTypes Outcome Mesh Box.
Import ListNotations.

Section ShapeQuery.
  Context {T : Type} {NT : Num T}.
  Local Open Scope num_scope.

  (** checkLinesegment, Shape.cpp:38-50 *)
  Definition checkLinesegment (p : vec3 T) (radius2 : T) (a ab : vec3 T) : bool :=
    let ap := vsub p a in
    let d1_2 := vlength2 ap in
    let d2 := vdot ab ap in
    if d2 <? n0 then false
    else
      let d2_2 := d2 * d2 / vlength2 ab in
      let tol := n1 + nlit 1 1000000000 in
      (d2_2 <=? vlength2 ab * tol) && (d1_2 - d2_2 <=? radius2 * tol).

  (** class LineSegment, Shape.cpp:55-89: end points a_, B; direction U_ and moment V_ *)
  Record ls := LS { ls_a : vec3 T; ls_b : vec3 T }.
  Definition ls_u (l : ls) : vec3 T := vsub (ls_b l) (ls_a l).
  Definition ls_v (l : ls) : vec3 T := vcross (ls_a l) (ls_b l).
  (** sideProduct, Shape.cpp:103-106 *)
  Definition sideProduct (p q : ls) : T := vdot (ls_u p) (ls_v q) + vdot (ls_u q) (ls_v p).
  (** lineLinesegmentIntersection, Shape.cpp:116-128 *)
  Definition line_ls_intersection (l s : ls) (outside : vec3 T) : bool :=
    if negb (sideProduct l s =? n0) then false
    else sideProduct l (LS outside (ls_a s)) * sideProduct l (LS (ls_b s) outside) >=? n0.
  (** 1e-16 and 1e-12 *)
  Definition eps16 : T := nlit 1 10000000000000000.
  Definition eps12 : T := nlit 1 1000000000000.
  (** t[i], Triangle.h *)
  Definition tget (v1 v2 v3 : vec3 T) (i : nat) : vec3 T := match i with 0%nat => v1 | 1%nat => v2 | _ => v3 end.
  (** first loop of compute2DIntersection, Shape.cpp:145-156: axis i; p3 keeps its last value when no axis breaks out *)
  Definition p3_moved (v3 : vec3 T) (i : nat) : vec3 T := vset v3 i (vget v3 i + n1).
  Definition p3_breaks (v1 v2 : vec3 T) (line : ls) (p3 : vec3 T) : bool :=
    (nabs (sideProduct line (LS v2 p3)) >=? eps16) || (nabs (sideProduct line (LS p3 v1)) >=? eps16).
  Definition choose_p3 (v1 v2 v3 : vec3 T) (line : ls) : vec3 T :=
    if p3_breaks v1 v2 line (p3_moved v3 0) then p3_moved v3 0
    else if p3_breaks v1 v2 line (p3_moved v3 1) then p3_moved v3 1
    else p3_moved v3 2.
  (** compute2DIntersection, Shape.cpp:137-178 *)
  Definition compute2D (v1 v2 v3 : vec3 T) (line : ls) : bool :=
    let p3 := choose_p3 v1 v2 v3 line in
    let t := tget v1 v2 v3 in
    existsb (fun i =>
      let s2 := sideProduct line (LS (t (Nat.modulo (i + 1) 3)) p3) in
      let s3 := sideProduct line (LS p3 (t i)) in
      (s2 * s3 >=? n0) &&
      existsb (fun j => line_ls_intersection line (LS (t j) (t (Nat.modulo (j + 1) 3))) p3) [0; 1; 2]%nat) [0; 1; 2]%nat.

  (** the running state of contains: intersect_count and the two hit maps.  The std::maps are functions with
      default 0, the value their entries are created with.  edge_hit_map is keyed by (i_min, i_max - i_min - 1). *)
  Record hits := Hits { h_count : Z; h_edge : N -> N -> Z; h_vert : N -> Z }.
  Definition b2z (b : bool) : Z := if b then 1%Z else 0%Z.
  Definition b2n (b : bool) : nat := if b then 1%nat else 0%nat.
  Definition cnt3 (a b c : bool) : nat := (b2n a + b2n b + b2n c)%nat.
  Definition upd1 (m : N -> Z) (i : N) (z : Z) : N -> Z := fun k => if N.eqb k i then z else m k.
  Definition upd2 (m : N -> N -> Z) (i j : N) (z : Z) : N -> N -> Z := fun k l => if N.eqb k i && N.eqb l j then z else m k l.

  (** one triangle of contains, Shape.cpp:303-461; None = "return true" *)
  Definition contains_tri (pts : list (vec3 T)) (p p_out : vec3 T) (t : triI) (h : hits) : outcome (option hits) :=
    let* v1 := or_ub (point_at pts (ti1 t)) in
    let* v2 := or_ub (point_at pts (ti2 t)) in
    let* v3 := or_ub (point_at pts (ti3 t)) in
    let line := LS p p_out in
    let e2 := LS v2 v3 in
    let s1 := sideProduct line (LS v1 v2) in
    let s2 := sideProduct line e2 in
    let s3 := sideProduct line (LS v3 v1) in
    let cw := (s1 >=? - eps16) && (s2 >=? - eps16) && (s3 >=? - eps16) in
    let cw_nz := cnt3 (s1 >? eps16) (s2 >? eps16) (s3 >? eps16) in
    let ccw := (s1 <=? eps16) && (s2 <=? eps16) && (s3 <=? eps16) in
    let ccw_nz := cnt3 (s1 <? - eps16) (s2 <? - eps16) (s3 <? - eps16) in
    let dir := (b2z cw - b2z ccw)%Z in
    let counted em vm := Ret (Some (Hits (h_count h + dir)%Z em vm)) in
    if negb cw && negb ccw then Ret (Some h)
    else if cw && ccw then (if compute2D v1 v2 v3 line then Ret None else Ret (Some h))
    else if (cw && Nat.ltb 0 cw_nz) || (ccw && Nat.ltb 0 ccw_nz) then
      let s4 := sideProduct (LS p_out v1) e2 in
      let s5 := sideProduct (LS v1 p) e2 in
      if s4 * s5 >=? - eps16 then
        if Nat.eqb cw_nz 2 || Nat.eqb ccw_nz 2 then
          let (i1, i2) := if nabs s1 <? eps16 then (ti1 t, ti2 t)
                          else if nabs s2 <? eps16 then (ti2 t, ti3 t) else (ti3 t, ti1 t) in
          let i_min := if N.ltb i2 i1 then i2 else i1 in
          let i_max := if N.ltb i2 i1 then i1 else i2 in
          let* a := or_ub (point_at pts i_min) in
          let* b := or_ub (point_at pts i_max) in
          if nabs (vlength (vsub p a) + vlength (vsub b p) - vlength (vsub b a)) <=? eps12 then Ret None
          else
            let key := u32 (i_max + 4294967295 - i_min) in
            if Z.eqb (h_edge h i_min key) dir then Ret (Some h)
            else counted (upd2 (h_edge h) i_min key (h_edge h i_min key + dir)%Z) (h_vert h)
        else if Nat.eqb cw_nz 1 || Nat.eqb ccw_nz 1 then
          let i := if nabs s2 >? eps16 then ti1 t else if nabs s3 >? eps16 then ti2 t else ti3 t in
          let* a := or_ub (point_at pts i) in
          if veqb a p then Ret None
          else if Z.eqb (h_vert h i) dir then Ret (Some h)
          else counted (h_edge h) (upd1 (h_vert h) i (h_vert h i + dir)%Z)
        else
          let s := triangleArea v1 v2 v3 in
          let a1 := triangleArea v2 p v3 in
          let a2 := triangleArea p v1 v3 in
          let a3 := triangleArea p v1 v2 in
          if nabs (a1 + a2 + a3 - s) <? eps12 then Ret None
          else counted (h_edge h) (h_vert h)
      else Ret (Some h)
    else Ret (Some h).
  Fixpoint contains_loop (pts : list (vec3 T)) (p p_out : vec3 T) (ts : list triI) (h : hits) : outcome bool :=
    match ts with
    | [] => Ret (if Z.ltb (h_count h) 0 || Z.ltb 1 (h_count h) then false else Z.ltb 0 (h_count h))
    | t :: r =>
        let* o := contains_tri pts p p_out t h in
        match o with None => Ret true | Some h' => contains_loop pts p p_out r h' end
    end.
  (** Shape::contains, Shape.cpp:278-473.  The radius getters also refresh the mesh's caches; that effect is modelled
      by getSquaredMaxRadius and getMaxRadius and left out here. *)
  Definition mesh_contains (m : mesh T) (p : vec3 T) : outcome bool :=
    if vlength2 p >? fst (getSquaredMaxRadius m) then Ret false
    else
      let p_out := V3 (nlit 11 10 * fst (getMaxRadius m)) n0 n0 in
      contains_loop (m_points m) p p_out (m_tris m) (Hits 0 (fun _ _ => 0%Z) (fun _ => 0%Z)).

  (** one triangle of intersect(Vector3, double), Shape.cpp:220-266 *)
  Definition sphere_tri (p : vec3 T) (radius2 : T) (v1 v2 v3 : vec3 T) : bool :=
    if vlength2 (vsub v1 p) <? radius2 then true
    else if vlength2 (vsub v2 p) <? radius2 then true
    else if vlength2 (vsub v3 p) <? radius2 then true
    else
      let e1 := vsub v2 v1 in
      let e2 := vsub v3 v2 in
      let e3 := vsub v1 v3 in
      if checkLinesegment p radius2 v1 e1 then true
      else if checkLinesegment p radius2 v2 e2 then true
      else if checkLinesegment p radius2 v3 e3 then true
      else
        let n := vcross e1 e2 in
        let d := vdot (vsub v1 p) n in
        let pd2 := d * d / vlength2 n in
        if pd2 >? radius2 then false
        else
          let q := vsub p (vscale (vnormalized n) (nsqrt pd2)) in
          let c1 := vcross e1 (vsub q v1) in
          let c2 := vcross e2 (vsub q v2) in
          let c3 := vcross e3 (vsub q v3) in
          (vdot c1 c2 >? n0) && (vdot c2 c3 >? n0) && (vdot c3 c1 >? n0).
  Fixpoint sphere_loop (pts : list (vec3 T)) (p : vec3 T) (radius2 : T) (ts : list triI) : outcome bool :=
    match ts with
    | [] => Ret false
    | t :: r =>
        let* v1 := or_ub (point_at pts (ti1 t)) in
        let* v2 := or_ub (point_at pts (ti2 t)) in
        let* v3 := or_ub (point_at pts (ti3 t)) in
        if sphere_tri p radius2 v1 v2 v3 then Ret true else sphere_loop pts p radius2 r
    end.
  (** Shape::intersect(Vector3, double), Shape.cpp:205-270 *)
  Definition mesh_sphere (m : mesh T) (p : vec3 T) (radius : T) : outcome bool :=
    if vlength p - radius >? fst (getMaxRadius m) then Ret false
    else
      let* hit := if radius >? n0 then sphere_loop (m_points m) p (radius * radius) (m_tris m) else Ret false in
      if hit then Ret true else mesh_contains m p.
End ShapeQuery.
Arguments ls : clear implicits.
