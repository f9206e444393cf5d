(** * src/shapes.cpp *)
From Coq Require Import ZArith NArith List Bool.
From Verif Require Import Num MathTypes Outcome Mesh Box.
Import ListNotations.

(** for (unsigned int i = i0; i < bound; ++i): the counter wraps at 2^32 *)
Fixpoint for_u32 {S : Type} (fuel : nat) (i bound : N) (body : N -> S -> outcome S) (s : S) : outcome S :=
  match fuel with
  | O => Fuel
  | Datatypes.S k =>
      if N.ltb i bound then let* s' := body i s in for_u32 k (u32 (i + 1)) bound body s' else Ret s
  end.

Section Shapes.
  Context {T : Type} {NT : Num T} {TR : Trig T}.
  Local Open Scope num_scope.

  (** one corner of createCylinder, shapes.cpp:22-27 *)
  Definition cyl_corner (radius height : T) (num_corners i : N) (m : mesh T) : mesh T :=
    let a := n2 * npi * nofZ (Z.of_N i) / nofZ (Z.of_N num_corners) in
    let x := nsin a * radius in
    let y := ncos a * radius in
    let m := snd (addPoint m (V3 x y (- height / n2))) in
    snd (addPoint m (V3 x y (height / n2))).
  (** createCylinder, shapes.cpp:15-51; [s] is a plain Shape (Box and CompositeShape throw in setMesh) *)
  Definition createCylinder (fuel : nat) (s : shape T) (radius height : T) (num_corners : N) : outcome (shape T) :=
    let* m := for_u32 fuel 0 num_corners (fun i m => Ret (cyl_corner radius height num_corners i m)) mesh_new in
    (* num_corners - 1 on unsigned int *)
    let* m := for_u32 fuel 1 (u32 (num_corners + 4294967295)) (fun i m =>
      let i2 := u32 (2 * i) in
      let m := addTriangle m 0 i2 (u32 (i2 + 2)) in
      Ret (addTriangle m 1 (u32 (i2 + 3)) (u32 (i2 + 1)))) m in
    let* m := for_u32 fuel 0 num_corners (fun i m =>
      let j := N.modulo (u32 (i + 1)) num_corners in
      let m := addTriangle m (u32 (i * 2)) (u32 (u32 (i * 2) + 1)) (u32 (j * 2)) in
      Ret (addTriangle m (u32 (u32 (i * 2) + 1)) (u32 (u32 (j * 2) + 1)) (u32 (j * 2)))) m in
    Ret (shape_setMesh s m).

  (** one corner of createConvexPolygon, shapes.cpp:63-67 *)
  Definition poly_corner (min_z max_z : T) (m : mesh T) (p : vec2 T) : mesh T :=
    let m := snd (addPoint m (V3 (v2x p) (v2y p) min_z)) in
    snd (addPoint m (V3 (v2x p) (v2y p) max_z)).
  (** createConvexPolygon, shapes.cpp:55-90.  points.size() - 1 is computed on size_t; i2 and j are signed, so i2 + 2
      overflows for i2 = 2^31 - 2 and j * 2 for j >= 2^30.  Simplification: point counts are below 2^32. *)
  Definition createConvexPolygon (fuel : nat) (s : shape T) (points : list (vec2 T)) (height : T) : outcome (shape T) :=
    let min_z := - height / n2 in
    let max_z := height / n2 in
    let size := N.of_nat (length points) in
    let m := fold_left (poly_corner min_z max_z) points mesh_new in
    let* m := for_u32 fuel 1 (N.modulo (size + 18446744073709551615) 18446744073709551616) (fun i m =>
      let i2 := u32 (2 * i) in
      if N.eqb i2 2147483646 then UB
      else
        let m := addTriangle m 0 i2 (u32 (i2 + 2)) in
        Ret (addTriangle m 1 (u32 (i2 + 3)) (u32 (i2 + 1)))) m in
    let* m := for_u32 fuel 0 size (fun i m =>
      let j := N.modulo (u32 (i + 1)) size in
      if N.leb 1073741824 j then UB
      else
        let m := addTriangle m (u32 (i * 2)) (u32 (u32 (i * 2) + 1)) (u32 (j * 2)) in
        Ret (addTriangle m (u32 (u32 (i * 2) + 1)) (u32 (u32 (j * 2) + 1)) (u32 (j * 2)))) m in
    Ret (shape_setMesh s m).
End Shapes.
