(** * src/CompositeShape.cpp *)
From Coq Require Import ZArith NArith List Bool.
From Verif Require Import Num MathTypes Outcome Mesh Box.
Import ListNotations.

Section Composite.
  Context {T : Type} {NT : Num T}.
  Local Open Scope num_scope.

  (** A child shape as seen through Shape's virtual functions (Shape.h:60-111): ray test (result and value of the
      distance output), ball test, containment, getMesh.  clone() (CompositeShape.cpp:106) is value copy. *)
  Record child := Child {
    ch_ray : ray T -> T -> T -> T -> outcome (bool * T);
    ch_sphere : vec3 T -> T -> outcome bool;
    ch_contains : vec3 T -> outcome bool;
    ch_mesh : mesh T
  }.

  (** class CompositeShape, CompositeShape.h:51-64 and mesh_ of Shape.h:113 *)
  Record comp := Comp {
    c_shapes : list (child * trans3 T);
    c_r : T; c_min : vec3 T; c_max : vec3 T; c_bb : box T; c_mesh : mesh T
  }.

  (** constructor, CompositeShape.cpp:19-21: bb_ is built from -min_ and -max_ *)
  Definition comp_new : comp :=
    let h := nofZ 10000000000 in let l := - nofZ 10000000000 in
    Comp [] n0 (V3 h h h) (V3 l l l) (box_make (vopp (V3 h h h)) (vopp (V3 l l l))) mesh_new.

  (** std::any_of with a predicate that may fail; stops at the first hit *)
  Fixpoint oany {A} (f : A -> outcome bool) (l : list A) : outcome bool :=
    match l with
    | [] => Ret false
    | a :: r => let* b := f a in if b : bool then Ret true else oany f r
    end.

  (** loop of intersect(Ray), CompositeShape.cpp:40-54; d is initialised with NAN, modelled by 0/0 *)
  Fixpoint comp_ray_loop (r : ray T) (t0 : T) (l : list (child * trans3 T)) (hit : bool) (md : T) : outcome (bool * T) :=
    match l with
    | [] => Ret (hit, md)
    | (ch, inv) :: l' =>
        let r_t := ray_make (tapply inv (r_o r)) (m3mulv (tR inv) (r_d r)) in
        let* hd := ch_ray ch r_t t0 (nf32 md) (n0 / n0) in
        let (h, d) := hd : bool * T in
        if h then comp_ray_loop r t0 l' true d else comp_ray_loop r t0 l' hit md
    end.
  (** intersect(Ray), CompositeShape.cpp:30-63 *)
  Definition comp_ray (c : comp) (r : ray T) (t0 t1 d0 : T) : outcome (bool * T) :=
    let (h, d) := box_ray (c_bb c) r t0 t1 d0 in
    if negb h then Ret (false, d)
    else
      let* hm := comp_ray_loop r t0 (c_shapes c) false t1 in
      let (hit, md) := hm : bool * T in
      if hit then Ret (true, md) else Ret (false, d).

  (** intersect(Vector3, double), CompositeShape.cpp:65-79 *)
  Definition comp_sphere (c : comp) (p : vec3 T) (radius : T) : outcome bool :=
    if negb (box_sphere (c_bb c) p radius) then Ret false
    else oany (fun '(ch, inv) => ch_sphere ch (tapply inv p) radius) (c_shapes c).

  (** contains, CompositeShape.cpp:81-96 *)
  Definition comp_contains (c : comp) (p : vec3 T) : outcome bool :=
    if negb (box_contains (c_bb c) p) then Ret false
    else oany (fun '(ch, inv) => ch_contains ch (tapply inv p)) (c_shapes c).

  (** getMaxRadius, getBoundingBox, CompositeShape.cpp:98-101, 134-137 *)
  Definition comp_maxRadius (c : comp) : T := c_r c.
  Definition comp_bbox (c : comp) : box T := c_bb c.
  (** setMesh, CompositeShape.cpp:144-149 *)
  Definition comp_setMesh (c : comp) (m : mesh T) : outcome comp := Exn.

  (** body of the triangle loop, CompositeShape.cpp:110-126; std::min of an initializer list keeps the leftmost
      smallest element, std::max the leftmost largest *)
  Definition comp_tri (pose : trans3 T) (st : T * vec3 T * vec3 T) (t : tri T) : T * vec3 T * vec3 T :=
    let '(r, mn, mx) := st in
    let p1 := tapply pose (tp1 t) in
    let p2 := tapply pose (tp2 t) in
    let p3 := tapply pose (tp3 t) in
    let r := nmax r (vlength p1) in
    let r := nmax r (vlength p2) in
    let r := nmax r (vlength p3) in
    let mn4 f := nmin (nmin (nmin (f mn) (f p1)) (f p2)) (f p3) in
    let mx4 f := nmax (nmax (nmax (f mx) (f p1)) (f p2)) (f p3) in
    (r, V3 (mn4 vx) (mn4 vy) (mn4 vz), V3 (mx4 vx) (mx4 vy) (mx4 vz)).

  (** addShape, CompositeShape.cpp:103-132 *)
  Definition comp_add (c : comp) (ch : child) (pose : trans3 T) : outcome comp :=
    let* tm := getTriangles (ch_mesh ch) in
    let '(r, mn, mx) := fold_left (comp_tri pose) (fst tm) (c_r c, c_min c, c_max c) in
    Ret (Comp (c_shapes c ++ [(ch, tinverse pose)]) r mn mx (box_make mn mx)
              (mesh_add (c_mesh c) (getTransformed (ch_mesh ch) pose))).

  (** the virtual functions of a Box (Box.h:39-80) and of a CompositeShape (CompositeShape.h:22-56) *)
  Definition box_child (b : box T) : child :=
    Child (fun r t0 t1 d => Ret (box_ray b r t0 t1 d)) (fun p r => Ret (box_sphere b p r)) (fun p => Ret (box_contains b p)) (b_mesh b).
  Definition comp_child (c : comp) : child := Child (comp_ray c) (comp_sphere c) (comp_contains c) (c_mesh c).

  (** a sequence of addShape calls *)
  Fixpoint comp_adds (c : comp) (l : list (child * trans3 T)) : outcome comp :=
    match l with
    | [] => Ret c
    | (ch, p) :: r => let* c' := comp_add c ch p in comp_adds c' r
    end.
End Composite.
Arguments child : clear implicits.
Arguments comp : clear implicits.

(** Construction histories: boxes, and composites filled by addShape calls with previously built shapes *)
Inductive ctree (T : Type) : Type :=
| TBox (mn mx : vec3 T)
| TComp (l : list (ctree T * trans3 T)).
Arguments TBox {T} _ _.
Arguments TComp {T} _.

Section Build.
  Context {T : Type} {NT : Num T}.
  Fixpoint build (t : ctree T) : outcome (child T) :=
    match t with
    | TBox mn mx => Ret (box_child (box_make mn mx))
    | TComp l =>
        let* c := (fix go (l : list (ctree T * trans3 T)) (c : comp T) : outcome (comp T) :=
                     match l with
                     | [] => Ret c
                     | (t', p) :: r => let* ch := build t' in let* c' := comp_add c ch p in go r c'
                     end) l comp_new in
        Ret (comp_child c)
    end.
End Build.
