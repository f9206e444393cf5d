(** * src/Ray.cpp, src/Box.cpp and the bounding-box part of src/Shape.cpp *)
From Coq Require Import ZArith NArith List Bool.
From Verif Require Import Num MathTypes Outcome Mesh.
Import ListNotations.

Section Box.
  Context {T : Type} {NT : Num T}.
  Local Open Scope num_scope.

  (** ** class Ray, Ray.h:38-68; the unused length_ is omitted *)
  Record ray := Ray_ { r_o : vec3 T; r_d : vec3 T; r_inv : vec3 T; r_s0 : bool; r_s1 : bool; r_s2 : bool }.

  (** calculateInvDirection, Ray.cpp:17-25 *)
  Definition inv1 (d : T) : T := if nabs d <? nlit 1 1000000000 then n0 else n1 / d.
  (** constructor, Ray.cpp:8-15 *)
  Definition ray_make (o d : vec3 T) : ray :=
    let dir := vnormalized d in
    Ray_ o dir (V3 (inv1 (vx dir)) (inv1 (vy dir)) (inv1 (vz dir))) (vx dir <? n0) (vy dir <? n0) (vz dir <? n0).

  (** ** class Box, Box.h:16-85.  The unused max_radius_ is omitted; the bounding box cache inherited
      from Shape is never used because getBoundingBox is overridden. *)
  Record box := Box_ { b_min : vec3 T; b_max : vec3 T; b_mesh : mesh T }.

  (** mesh_.addPoint / addTriangle on the running mesh *)
  Definition addP (m : mesh T) (x y z : T) : N * mesh T := addPoint m (V3 x y z).

  (** generate_mesh_, Box.cpp:160-197 *)
  Definition generate_mesh (mn mx : vec3 T) (m : mesh T) : mesh T :=
    let (p0, m) := addP m (vx mn) (vy mn) (vz mn) in
    let (p1, m) := addP m (vx mx) (vy mn) (vz mn) in
    let (p2, m) := addP m (vx mn) (vy mx) (vz mn) in
    let (p3, m) := addP m (vx mx) (vy mx) (vz mn) in
    let (p4, m) := addP m (vx mn) (vy mn) (vz mx) in
    let (p5, m) := addP m (vx mx) (vy mn) (vz mx) in
    let (p6, m) := addP m (vx mn) (vy mx) (vz mx) in
    let (p7, m) := addP m (vx mx) (vy mx) (vz mx) in
    let m := addTriangle m p1 p0 p2 in
    let m := addTriangle m p1 p2 p3 in
    let m := addTriangle m p4 p5 p6 in
    let m := addTriangle m p6 p5 p7 in
    let m := addTriangle m p0 p4 p2 in
    let m := addTriangle m p2 p4 p6 in
    let m := addTriangle m p5 p1 p3 in
    let m := addTriangle m p5 p3 p7 in
    let m := addTriangle m p0 p1 p4 in
    let m := addTriangle m p4 p1 p5 in
    let m := addTriangle m p3 p2 p6 in
    addTriangle m p3 p6 p7.

  (** constructor, Box.cpp:19-24 *)
  Definition box_make (mn mx : vec3 T) : box := Box_ mn mx (generate_mesh mn mx mesh_new).

  (** bounds[s] *)
  Definition bnd (b : box) (s : bool) : vec3 T := if s then b_max b else b_min b.

  (** intersect(Ray), Box.cpp:31-61.  t0 and t1 are already floats.  Returns the result and the value of
      the distance output parameter, whose incoming value is [d0] (it is not written on early return). *)
  Definition box_ray (b : box) (r : ray) (t0 t1 d0 : T) : bool * T :=
    let o := r_o r in
    let inv := r_inv r in
    let tmin := nf32 ((vx (bnd b (r_s0 r)) - vx o) * vx inv) in
    let tmax := nf32 ((vx (bnd b (negb (r_s0 r))) - vx o) * vx inv) in
    let tymin := nf32 ((vy (bnd b (r_s1 r)) - vy o) * vy inv) in
    let tymax := nf32 ((vy (bnd b (negb (r_s1 r))) - vy o) * vy inv) in
    if (tmin >? tymax) || (tymin >? tmax) then (false, d0)
    else
      let tmin := nmax tymin tmin in
      let tmax := nmin tymax tmax in
      let tzmin := nf32 ((vz (bnd b (r_s2 r)) - vz o) * vz inv) in
      let tzmax := nf32 ((vz (bnd b (negb (r_s2 r))) - vz o) * vz inv) in
      if (tmin >? tzmax) || (tzmin >? tmax) then (false, d0)
      else
        let tmin := nmax tzmin tmin in
        let tmax := nmin tzmax tmax in
        ((t0 <? tmax) && (tmin <? t1), tmin).

  (** getMaxRadius, Box.cpp:63-66 *)
  Definition box_maxRadius (b : box) : T := nmax (vlength (b_min b)) (vlength (b_max b)).
  (** getSize, getCenter, Box.cpp:133-141 *)
  Definition box_size (b : box) : vec3 T := vsub (b_max b) (b_min b).
  Definition box_center (b : box) : vec3 T := vdivs (vadd (b_min b) (b_max b)) n2.

  (** intersect(Box), Box.cpp:68-84 *)
  Definition box_box (b o : box) : bool :=
    let c1 := box_center b in
    let c2 := box_center o in
    let r1 := vscale (box_size b) (nlit 5 10) in
    let r2 := vscale (box_size o) (nlit 5 10) in
    if nabs (vx c1 - vx c2) >? (vx r1 + vx r2) then false
    else if nabs (vy c1 - vy c2) >? (vy r1 + vy r2) then false
    else if nabs (vy c1 - vz c2) >? (vz r1 + vz r2) then false
    else true.

  (** contains, Box.cpp:105-109 *)
  Definition box_contains (b : box) (p : vec3 T) : bool :=
    (vx p >=? vx (b_min b)) && (vx p <=? vx (b_max b)) && (vy p >=? vy (b_min b)) && (vy p <=? vy (b_max b)) &&
    (vz p >=? vz (b_min b)) && (vz p <=? vz (b_max b)).

  (** intersect(Vector3, double), Box.cpp:86-103; the loop over the axes is unrolled *)
  Definition clamp_axis (b : box) (p c : vec3 T) (i : nat) : vec3 T :=
    if (vget p i >? vget (b_min b) i) && (vget p i <? vget (b_max b) i)
    then vset c i (vget p i)
    else vset c i (vget (bnd b (vget p i >? vget c i)) i).
  Definition box_sphere (b : box) (p : vec3 T) (radius : T) : bool :=
    let c := box_center b in
    if radius <=? n0 then box_contains b p
    else
      let c := clamp_axis b p c 0 in
      let c := clamp_axis b p c 1 in
      let c := clamp_axis b p c 2 in
      radius * radius >=? vlength2 (vsub p c).

  (** getBoundingBox, Box.cpp:111-114 *)
  Definition box_bbox (b : box) : box := b.

  (** body of the loop of enclose, Box.cpp:120-129 *)
  Definition enclose_pt (mm : vec3 T * vec3 T) (p : vec3 T) : vec3 T * vec3 T :=
    let (mn, mx) := mm in
    (V3 (nmin (vx mn) (vx p)) (nmin (vy mn) (vy p)) (nmin (vz mn) (vz p)),
     V3 (nmax (vx mx) (vx p)) (nmax (vy mx) (vy p)) (nmax (vz mx) (vz p))).
  (** enclose, Box.cpp:116-131; the mesh is not cleared before generate_mesh_ *)
  Definition box_enclose (b o : box) (pose : trans3 T) : box :=
    let pts := m_points (getTransformed (b_mesh o) pose) in
    let (mn, mx) := fold_left enclose_pt pts (b_min b, b_max b) in
    Box_ mn mx (generate_mesh mn mx (b_mesh b)).

  (** setMesh, Box.cpp:153-158 *)
  Definition box_setMesh (b : box) (m : mesh T) : outcome box := Exn.

  (** ** class Shape: mesh and bounding box cache, Shape.h:113-118 *)
  Record shape := Shape_ { s_mesh : mesh T; s_bbv : bool; s_bbmin : vec3 T; s_bbmax : vec3 T }.

  (** Shape(), Shape.cpp:184; Vector3() leaves its members uninitialised, modelled by 0 *)
  Definition shape_new : shape := Shape_ mesh_new false (V3 n0 n0 n0) (V3 n0 n0 n0).

  (** loop body of getBoundingBox, Shape.cpp:486-494 *)
  Definition bb_pt (mm : vec3 T * vec3 T) (p : vec3 T) : vec3 T * vec3 T :=
    let (mn, mx) := mm in
    (V3 (nmin (vx p) (vx mn)) (nmin (vy p) (vy mn)) (nmin (vz p) (vz mn)),
     V3 (nmax (vx p) (vx mx)) (nmax (vy p) (vy mx)) (nmax (vz p) (vz mx))).
  Definition bb_init : vec3 T * vec3 T :=
    let h := nofZ 1000000000 in let l := nofZ (-1000000000) in (V3 h h h, V3 l l l).
  Definition bb_of_points (pts : list (vec3 T)) : vec3 T * vec3 T := fold_left bb_pt pts bb_init.
  (** getBoundingBox, Shape.cpp:475-501; [m] is what the virtual getMesh() returns *)
  Definition shape_bbox (s : shape) (m : mesh T) : box * shape :=
    let s' := if s_bbv s then s
              else let (mn, mx) := bb_of_points (m_points m) in Shape_ (s_mesh s) true mn mx in
    (box_make (s_bbmin s') (s_bbmax s'), s').
  (** setMesh, Shape.cpp:508-512 *)
  Definition shape_setMesh (s : shape) (m : mesh T) : shape := Shape_ m false (s_bbmin s) (s_bbmax s).
  (** getMaxRadius, Shape.cpp:514-518 *)
  Definition shape_maxRadius (s : shape) : T * shape :=
    let (r, m) := getMaxRadius (s_mesh s) in (r, Shape_ m (s_bbv s) (s_bbmin s) (s_bbmax s)).
  (** empty, Shape.h:105 *)
  Definition shape_empty (s : shape) : bool := mesh_empty (s_mesh s).
  (** intersect(Ray), Shape.cpp:193-197 *)
  Definition shape_ray (s : shape) (r : ray) (t0 t1 d0 : T) : outcome (bool * T) := Exn.

  (** histories of a plain shape *)
  Inductive shape_op := SSetMesh (m : mesh T) | SBBox | SMaxRadius.
  Definition shape_step (s : shape) (o : shape_op) : shape :=
    match o with
    | SSetMesh m => shape_setMesh s m
    | SBBox => snd (shape_bbox s (s_mesh s))
    | SMaxRadius => snd (shape_maxRadius s)
    end.
  Definition shape_run (s : shape) (ops : list shape_op) : shape := fold_left shape_step ops s.

  (** histories of boxes: constructed from bounds satisfying P, then enclosing other boxes *)
  Inductive box_hist (P : vec3 T -> vec3 T -> Prop) : box -> Prop :=
  | bh_make : forall mn mx, P mn mx -> box_hist P (box_make mn mx)
  | bh_enclose : forall b o pose, box_hist P b -> box_hist P o -> box_hist P (box_enclose b o pose).
End Box.
Arguments ray : clear implicits.
Arguments box : clear implicits.
Arguments shape : clear implicits.
Arguments shape_op : clear implicits.
