(** * Virtual functions of Shape, Box and CompositeShape called through a pointer to Shape
    include/geolib/Shape.h:36-111, Box.h:39-80, CompositeShape.h:22-56.  Octree and HeightMap are in Octree.v and HeightMap.v. *)
From Coq Require Import ZArith NArith List Bool.
From Verif Require Import Num MathTypes Outcome Mesh Box Composite ShapeQuery.
Import ListNotations.

Section Dispatch.
  Context {T : Type} {NT : Num T}.

  Inductive vshape := VPlain (s : shape T) | VBox (b : box T) | VComp (c : comp T).

  (** getMesh, Shape.cpp:503-506, not overridden by Box and CompositeShape *)
  Definition v_mesh (s : vshape) : mesh T := match s with VPlain s => s_mesh s | VBox b => b_mesh b | VComp c => c_mesh c end.
  (** getMesh().size(), Mesh.h:76 *)
  Definition v_size (s : vshape) : nat := mesh_size (v_mesh s).
  (** empty, Shape.h:105, not overridden *)
  Definition v_empty (s : vshape) : bool :=
    match s with VPlain s => shape_empty s | VBox b => mesh_empty (b_mesh b) | VComp c => mesh_empty (c_mesh c) end.
  (** setMesh, Shape.cpp:508-512, Box.cpp:153-158, CompositeShape.cpp:144-149 *)
  Definition v_setMesh (s : vshape) (m : mesh T) : outcome vshape :=
    match s with
    | VPlain s => Ret (VPlain (shape_setMesh s m))
    | VBox b => let* b' := box_setMesh b m in Ret (VBox b')
    | VComp c => let* c' := comp_setMesh c m in Ret (VComp c')
    end.
  (** intersect(Ray), Shape.cpp:193-197, Box.cpp:31-61, CompositeShape.cpp:30-63 *)
  Definition v_ray (s : vshape) (r : ray T) (t0 t1 d0 : T) : outcome (bool * T) :=
    match s with VPlain s => shape_ray s r t0 t1 d0 | VBox b => Ret (box_ray b r t0 t1 d0) | VComp c => comp_ray c r t0 t1 d0 end.
  (** getBoundingBox, Shape.cpp:475-501, Box.cpp:111-114, CompositeShape.cpp:134-137; the object with its cache filled *)
  Definition v_bbox (s : vshape) : box T * vshape :=
    match s with
    | VPlain s => let (b, s') := shape_bbox s (s_mesh s) in (b, VPlain s')
    | VBox b => (box_bbox b, s)
    | VComp c => (comp_bbox c, s)
    end.
  (** clone, Shape.cpp:188-191, Box.cpp:26-29, CompositeShape.cpp:25-28, as a child of a composite *)
  Definition v_child (s : vshape) : child T :=
    match s with
    | VPlain s => Child (shape_ray s) (mesh_sphere (s_mesh s)) (mesh_contains (s_mesh s)) (s_mesh s)
    | VBox b => box_child b
    | VComp c => comp_child c
    end.

  (** programs over any number of shapes; exceptions are caught and the program goes on *)
  Inductive vop :=
  | VNew                                             (* Shape() *)
  | VNewBox (mn mx : vec3 T)                         (* Box(mn, mx) *)
  | VNewComp                                         (* CompositeShape() *)
  | VSetMesh (i : nat) (m : mesh T)                  (* shapes[i]->setMesh(m) *)
  | VSetMeshOf (i j : nat)                           (* shapes[i]->setMesh(shapes[j]->getMesh()) *)
  | VBBox (i : nat)                                  (* shapes[i]->getBoundingBox() *)
  | VEnclose (i j : nat) (pose : trans3 T)           (* enclose on a Box with the Box j *)
  | VAdd (i j : nat) (pose : trans3 T).              (* addShape on a CompositeShape with the shape j *)
  Definition upd (w : list vshape) (i : nat) (s : vshape) : list vshape := firstn i w ++ s :: skipn (S i) w.
  (** an exception leaves the shapes as they are *)
  Definition caught (w : list vshape) (i : nat) (o : outcome vshape) : outcome (list vshape) :=
    match o with Ret s => Ret (upd w i s) | Exn => Ret w | UB => UB | Fuel => Fuel end.
  Definition v_step (w : list vshape) (o : vop) : outcome (list vshape) :=
    match o with
    | VNew => Ret (w ++ [VPlain shape_new])
    | VNewBox mn mx => Ret (w ++ [VBox (box_make mn mx)])
    | VNewComp => Ret (w ++ [VComp comp_new])
    | VSetMesh i m => let* s := or_ub (nth_error w i) in caught w i (v_setMesh s m)
    | VSetMeshOf i j => let* s := or_ub (nth_error w i) in let* o := or_ub (nth_error w j) in caught w i (v_setMesh s (v_mesh o))
    | VBBox i => let* s := or_ub (nth_error w i) in Ret (upd w i (snd (v_bbox s)))
    | VEnclose i j pose =>
        match nth_error w i, nth_error w j with
        | Some (VBox b), Some (VBox o) => Ret (upd w i (VBox (box_enclose b o pose)))
        | _, _ => UB
        end
    | VAdd i j pose =>
        match nth_error w i, nth_error w j with
        | Some (VComp c), Some o => let* c' := comp_add c (v_child o) pose in Ret (upd w i (VComp c'))
        | _, _ => UB
        end
    end.
  Fixpoint v_run (w : list vshape) (ops : list vop) : outcome (list vshape) :=
    match ops with [] => Ret w | o :: r => let* w' := v_step w o in v_run w' r end.
End Dispatch.
Arguments vshape : clear implicits.
Arguments vop : clear implicits.
