(** * The assertions of the repository's own unit tests, evaluated in the model (doubles)
    test/box_test.h, test/test_box.cpp, test/test_shape.cpp and test/test_composite_shape.cpp.  These are tests of the
    transcription, not theorems about the code: they compare the model with the answers the authors expect. *)
From Coq Require Import ZArith NArith List Bool.
From Verif Require Import Num MathTypes Outcome Mesh Box Composite ShapeQuery.
Import ListNotations.

Local Notation "a // b" := (nlit a b : F64) (at level 40).
Local Notation z0 := (nofZ 0 : F64).
(** box_test.h:9-15 *)
Definition t_min : vec3 F64 := V3 (-5 // 10) (-5 // 10) (-5 // 10).
Definition t_max : vec3 F64 := V3 (5 // 10) (5 // 10) (5 // 10).
Definition t_origin : vec3 F64 := V3 z0 z0 z0.
Definition t_box : box F64 := box_make t_min t_max.
Definition t_side_center : vec3 F64 := V3 z0 z0 (5 // 10).
Definition t_side_center_triangle : vec3 F64 := V3 z0 (25 // 100) (5 // 10).
Definition t_side_center_close : vec3 F64 := V3 z0 z0 (7 // 10).
Definition t_side_center_distance : vec3 F64 := V3 z0 z0 (nofZ 1).
(** the points and answers of the Contains tests *)
Definition t_contains : list (vec3 F64 * bool) :=
  [(t_origin, true); (t_min, true); (t_max, true); (t_side_center, true); (t_side_center_triangle, true); (t_side_center_distance, false); (t_side_center_close, false)].
(** the points, radii and answers of the Intersect tests *)
Definition t_intersect : list (vec3 F64 * F64 * bool) :=
  [(t_origin, z0, true); (t_origin, 1 // 10, true); (t_min, z0, true); (t_min, 1 // 10, true); (t_max, z0, true); (t_max, 1 // 10, true);
   (t_side_center, z0, true); (t_side_center, 1 // 10, true); (t_side_center_triangle, z0, true); (t_side_center_triangle, 1 // 10, true);
   (t_side_center_distance, z0, false); (t_side_center_distance, 1 // 10, false); (t_side_center_distance, 5 // 10, true); (t_side_center_distance, 6 // 10, true);
   (t_side_center_close, z0, false); (t_side_center_close, 1 // 10, false); (t_side_center_close, 2 // 10, true); (t_side_center_close, 25 // 100, true)].
Definition is_ret (o : outcome bool) (b : bool) : bool := match o with Ret x => eqb x b | _ => false end.

(** test_box.cpp:8-21 and 23-46 *)
Example box_contains_test : forallb (fun x => eqb (box_contains t_box (fst x)) (snd x)) t_contains = true.
Proof. vm_compute. reflexivity. Qed.
Example box_intersect_test : forallb (fun x => eqb (box_sphere t_box (fst (fst x)) (snd (fst x))) (snd x)) t_intersect = true.
Proof. vm_compute. reflexivity. Qed.
(** test_shape.cpp:17-29 and 31-55: Shape(box) keeps only the mesh *)
Example shape_contains_test : forallb (fun x => is_ret (mesh_contains (b_mesh t_box) (fst x)) (snd x)) t_contains = true.
Proof. vm_compute. reflexivity. Qed.
Example shape_intersect_test : forallb (fun x => is_ret (mesh_sphere (b_mesh t_box) (fst (fst x)) (snd (fst x))) (snd x)) t_intersect = true.
Proof. vm_compute. reflexivity. Qed.
(** test_composite_shape.cpp:17-29 and 31-55: one box added at the identity *)
Definition t_comp : outcome (comp F64) := comp_add comp_new (box_child t_box) tidentity.
Example comp_contains_test : forallb (fun x => is_ret (let* c := t_comp in comp_contains c (fst x)) (snd x)) t_contains = true.
Proof. vm_compute. reflexivity. Qed.
Example comp_intersect_test : forallb (fun x => is_ret (let* c := t_comp in comp_sphere c (fst (fst x)) (snd (fst x))) (snd x)) t_intersect = true.
Proof. vm_compute. reflexivity. Qed.
