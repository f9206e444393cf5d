(** * src/Mesh.cpp, include/geolib/Mesh.h, src/Triangle.cpp

    A mesh is a point list, an index-triangle list and three mutable caches.  Indices are
    [unsigned int], i.e. naturals modulo 2^32.  Vectors are lists; an out-of-range operator[]
    is undefined behaviour.  Simplification: [size_t] sizes are unbounded naturals, and the loop
    counters [unsigned int i] of getTransformed/filterOverlappingVertices are not wrapped
    (relevant only for meshes with 2^32 or more points). *)
From Coq Require Import ZArith NArith List Bool.
From Verif Require Import Num MathTypes Outcome.
Import ListNotations.

(** unsigned int arithmetic *)
Definition u32 (n : N) : N := N.modulo n 4294967296.

(** struct TriangleI, Mesh.h:12-20 *)
Record triI := TI { ti1 : N; ti2 : N; ti3 : N }.

Section Mesh.
  Context {T : Type} {NT : Num T}.
  Local Open Scope num_scope.

  (** class Triangle, Triangle.h:13-43 *)
  Record tri := Tri { tp1 : vec3 T; tp2 : vec3 T; tp3 : vec3 T }.

  (** triangleArea, Triangle.cpp:8-11 *)
  Definition triangleArea (p1 p2 p3 : vec3 T) : T :=
    nlit 5 10 * vlength (vcross (vsub p1 p2) (vsub p1 p3)).
  (** Triangle::area, Triangle.cpp:17-20 *)
  Definition tri_area (t : tri) : T := triangleArea (tp1 t) (tp2 t) (tp3 t).

  (** class Mesh, Mesh.h:136-143 *)
  Record mesh := MkMesh {
    m_points : list (vec3 T);      (* points_ *)
    m_tris : list triI;            (* triangles_i_ *)
    m_r : T;                       (* max_radius_cache_ *)
    m_r2 : T;                      (* max_radius_squared_cache_ *)
    m_tc : list tri                (* triangles_cache_ *)
  }.

  (** invalidateCache, Mesh.h:146-151 *)
  Definition invalidate (m : mesh) : mesh := MkMesh (m_points m) (m_tris m) n0 n0 [].

  (** constructor, Mesh.cpp:15-18 *)
  Definition mesh_new : mesh := invalidate (MkMesh [] [] n0 n0 []).

  (** addPoint, Mesh.cpp:22-33; the size_t index is returned as unsigned int *)
  Definition addPoint (m : mesh) (p : vec3 T) : N * mesh :=
    let i := N.of_nat (length (m_points m)) in
    (u32 i, invalidate (MkMesh (m_points m ++ [p]) (m_tris m) (m_r m) (m_r2 m) (m_tc m))).

  (** addTriangle, Mesh.cpp:35-39 *)
  Definition addTriangle (m : mesh) (i1 i2 i3 : N) : mesh :=
    invalidate (MkMesh (m_points m) (m_tris m ++ [TI i1 i2 i3]) (m_r m) (m_r2 m) (m_tc m)).

  (** add, Mesh.cpp:41-52.  The argument is a mesh value; passing the mesh itself
      (self-insertion, undefined behaviour of vector::insert) is outside the model. *)
  Definition mesh_add (m o : mesh) : mesh :=
    let i_start := u32 (N.of_nat (length (m_points m))) in
    let sh (t : triI) := TI (u32 (ti1 t + i_start)) (u32 (ti2 t + i_start)) (u32 (ti3 t + i_start)) in
    invalidate (MkMesh (m_points m ++ m_points o) (m_tris m ++ map sh (m_tris o))
                       (m_r m) (m_r2 m) (m_tc m)).

  (** empty / size / clear, Mesh.h:70, :76, :79-85 *)
  Definition mesh_empty (m : mesh) : bool := match m_tris m with [] => true | _ => false end.
  Definition mesh_size (m : mesh) : nat := length (m_tris m).
  Definition mesh_clear (m : mesh) : mesh := invalidate (MkMesh [] [] (m_r m) (m_r2 m) (m_tc m)).

  (** points_[i] *)
  Definition point_at (pts : list (vec3 T)) (i : N) : option (vec3 T) := nth_error pts (N.to_nat i).

  (** loop of getTriangles, Mesh.cpp:68-71 *)
  Fixpoint build_tris (pts : list (vec3 T)) (ts : list triI) (acc : list tri) : outcome (list tri) :=
    match ts with
    | [] => Ret acc
    | t :: r =>
        let* p1 := or_ub (point_at pts (ti1 t)) in
        let* p2 := or_ub (point_at pts (ti2 t)) in
        let* p3 := or_ub (point_at pts (ti3 t)) in
        build_tris pts r (acc ++ [Tri p1 p2 p3])
    end.

  (** getTriangles, Mesh.cpp:64-74; returns the triangles and the mesh with its cache filled *)
  Definition getTriangles (m : mesh) : outcome (list tri * mesh) :=
    match m_tc m with
    | [] =>
        let* tc := build_tris (m_points m) (m_tris m) [] in
        Ret (tc, MkMesh (m_points m) (m_tris m) (m_r m) (m_r2 m) tc)
    | tc => Ret (tc, m)
    end.

  (** getTransformed, Mesh.cpp:76-87; the result is a fresh mesh with empty caches *)
  Definition getTransformed (m : mesh) (t : trans3 T) : mesh :=
    MkMesh (map (tapply t) (m_points m)) (m_tris m) n0 n0 [].

  (** CompareVec3i, Mesh.cpp:94-105 *)
  Definition cmpVec3i (a b : Z * Z * Z) : bool :=
    let '(ax, ay, az) := a in
    let '(bx, by_, bz) := b in
    if negb (Z.eqb ax bx) then Z.ltb ax bx
    else if negb (Z.eqb ay by_) then Z.ltb ay by_
    else Z.ltb az bz.

  (** std::map<Vec3i, int, CompareVec3i> as an association list ordered by the comparator *)
  Fixpoint xmap_find {A} (k : Z * Z * Z) (l : list ((Z * Z * Z) * A)) : option A :=
    match l with
    | [] => None
    | (k', v) :: r =>
        if cmpVec3i k k' then None
        else if cmpVec3i k' k then xmap_find k r
        else Some v
    end.
  Fixpoint xmap_insert {A} (k : Z * Z * Z) (v : A) (l : list ((Z * Z * Z) * A)) : list ((Z * Z * Z) * A) :=
    match l with
    | [] => [(k, v)]
    | (k', v') :: r =>
        if cmpVec3i k k' then (k, v) :: l
        else if cmpVec3i k' k then (k', v') :: xmap_insert k v r
        else (k', v) :: r
    end.

  (** the integer key of a point, Mesh.cpp:119-123 *)
  Definition vert_key (v : vec3 T) : option (Z * Z * Z) :=
    match toint (nofZ 1000 * vx v), toint (nofZ 1000 * vy v), toint (nofZ 1000 * vz v) with
    | Some ix, Some iy, Some iz => Some (ix, iy, iz)
    | _, _, _ => None
    end.

  (** first loop of filterOverlappingVertices, Mesh.cpp:115-135 *)
  Fixpoint filter_points (olds : list (vec3 T)) (m : mesh) (xyz : list ((Z * Z * Z) * N)) (i_map : list N)
    : outcome (mesh * list N) :=
    match olds with
    | [] => Ret (m, i_map)
    | v :: r =>
        let* k := or_ub (vert_key v) in
        match xmap_find k xyz with
        | Some ip => filter_points r m xyz (i_map ++ [ip])
        | None =>
            let (ip, m') := addPoint m v in
            filter_points r m' (xmap_insert k ip xyz) (i_map ++ [ip])
        end
    end.

  (** second loop, Mesh.cpp:137-142 *)
  Fixpoint remap_tris (i_map : list N) (ts : list triI) (acc : list triI) : outcome (list triI) :=
    match ts with
    | [] => Ret acc
    | t :: r =>
        let* a := or_ub (nth_error i_map (N.to_nat (ti1 t))) in
        let* b := or_ub (nth_error i_map (N.to_nat (ti2 t))) in
        let* c := or_ub (nth_error i_map (N.to_nat (ti3 t))) in
        remap_tris i_map r (acc ++ [TI a b c])
    end.

  (** filterOverlappingVertices, Mesh.cpp:107-143 *)
  Definition filterOverlapping (m : mesh) : outcome mesh :=
    let old_points := m_points m in
    let m0 := MkMesh [] (m_tris m) (m_r m) (m_r2 m) (m_tc m) in
    let* (m1, i_map) := filter_points old_points m0 [] [] in
    let* ts := remap_tris i_map (m_tris m1) [] in
    Ret (MkMesh (m_points m1) ts (m_r m1) (m_r2 m1) (m_tc m1)).

  (** getSquaredMaxRadius, Mesh.cpp:145-155 *)
  Definition getSquaredMaxRadius (m : mesh) : T * mesh :=
    let c := if m_r2 m =? n0
             then fold_left (fun c p => nmax c (vlength2 p)) (m_points m) (m_r2 m)
             else m_r2 m in
    (c, MkMesh (m_points m) (m_tris m) (m_r m) c (m_tc m)).

  (** getMaxRadius, Mesh.cpp:157-164 *)
  Definition getMaxRadius (m : mesh) : T * mesh :=
    if m_r m =? n0 then
      let (s, m') := getSquaredMaxRadius m in
      let r := nsqrt s in
      (r, MkMesh (m_points m') (m_tris m') r (m_r2 m') (m_tc m'))
    else (m_r m, m).

  (** getTriangleNormal, Mesh.cpp:166-175 *)
  Definition getTriangleNormal (m : mesh) (index : N) : outcome (vec3 T) :=
    let* t := or_ub (nth_error (m_tris m) (N.to_nat index)) in
    let* p1 := or_ub (point_at (m_points m) (ti1 t)) in
    let* p2 := or_ub (point_at (m_points m) (ti2 t)) in
    let* p3 := or_ub (point_at (m_points m) (ti3 t)) in
    Ret (vnormalized (vcross (vsub p3 p1) (vsub p2 p1))).

  (** ** Histories: any sequence of public calls on one mesh *)
  Inductive mesh_op :=
  | OAddPoint (p : vec3 T)
  | OAddTriangle (i1 i2 i3 : N)
  | OAdd (o : mesh)
  | OClear
  | OFilter
  | OGetTriangles
  | OGetSquaredMaxRadius
  | OGetMaxRadius.

  Definition mesh_step (m : mesh) (o : mesh_op) : outcome mesh :=
    match o with
    | OAddPoint p => Ret (snd (addPoint m p))
    | OAddTriangle a b c => Ret (addTriangle m a b c)
    | OAdd o => Ret (mesh_add m o)
    | OClear => Ret (mesh_clear m)
    | OFilter => filterOverlapping m
    | OGetTriangles => let* (_, m') := getTriangles m in Ret m'
    | OGetSquaredMaxRadius => Ret (snd (getSquaredMaxRadius m))
    | OGetMaxRadius => Ret (snd (getMaxRadius m))
    end.

  Fixpoint mesh_run (m : mesh) (ops : list mesh_op) : outcome mesh :=
    match ops with
    | [] => Ret m
    | o :: r => let* m' := mesh_step m o in mesh_run m' r
    end.
End Mesh.
Arguments mesh : clear implicits.
Arguments tri : clear implicits.
Arguments mesh_op : clear implicits.
