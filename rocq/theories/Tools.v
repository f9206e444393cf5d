(** * tools/height_image_to_shape.cpp and tools/height_image_to_file.cpp

    The outside world enters as parameters: [atof] (C library), [imread] (OpenCV; None is an image without data) and
    [can_write] (whether the output stream opens / the Assimp exporter succeeds for a file name).  Text printed to
    std::cout is reduced to the announced triangle count and file name. *)
From Coq Require Import ZArith NArith List Bool String.
From Verif Require Import Num MathTypes Outcome Mesh Box HeightMap Import.
Import ListNotations.

(** an 8-bit grey image with data: rows, columns, and the value at (row, column) *)
Record image := Img { im_rows : nat; im_cols : nat; im_at : nat -> nat -> N }.

Section Tools.
  Context {T : Type} {NT : Num T} {TT : Trig T}.
  Local Open Scope num_scope.

  (** v[i] = a for i < v.size() *)
  Fixpoint put (l : list T) (i : nat) (a : T) : list T :=
    match l, i with
    | [], _ => []
    | _ :: r, O => a :: r
    | b :: r, S i' => b :: put r i' a
    end.
  (** the loops filling map, height_image_to_shape.cpp:58-70 and height_image_to_file.cpp:55-67 (same text) *)
  Definition image_grid (bh : T) (im : image) : list (list T) :=
    map (fun x =>
      fold_left (fun col y => put col (im_rows im - y - 1) (bh - nofZ (Z.of_N (im_at im y x)) / nofZ 255 * bh))
        (seq 0 (im_rows im)) (repeat n0 (im_rows im)))
      (seq 0 (im_cols im)).

  (** what the command line asks for: input and output file, resolution, block height, origin *)
  Record request := Req { rq_in : string; rq_out : string; rq_res : T; rq_bh : T; rq_ox : T; rq_oy : T }.
  Context (atof : string -> T).
  Definition arg (argv : list string) (i : nat) : string := nth i argv EmptyString.
  (** height_image_to_shape.cpp:25-52, 86; argv contains the program name; None is the usage message *)
  Definition shape_args (argv : list string) : option request :=
    let argc := List.length argv in
    if Nat.ltb argc 2 || Nat.ltb 7 argc then None
    else
      let res := if Nat.ltb 3 argc then atof (arg argv 2) else nlit 2 10 in
      let bh := if Nat.ltb 4 argc then atof (arg argv 3) else n1 in
      let (ox, oy) := if Nat.ltb 6 argc then (atof (arg argv 4), atof (arg argv 5)) else (n0, n0) in
      Some (Req (arg argv 1) (arg argv 1 ++ ".geo")%string res bh ox oy).
  (** height_image_to_file.cpp:20-49 *)
  Definition file_args (argv : list string) : option request :=
    let argc := List.length argv in
    if Nat.ltb argc 3 || Nat.ltb 7 argc then None
    else
      let res := if Nat.ltb 3 argc then atof (arg argv 3) else nlit 2 10 in
      let bh := if Nat.ltb 4 argc then atof (arg argv 4) else n1 in
      let (ox, oy) := if Nat.ltb 6 argc then (atof (arg argv 5), atof (arg argv 6)) else (n0, n0) in
      Some (Req (arg argv 1) (arg argv 2) res bh ox oy).

  (** exit code, the mesh written with its file name, the announced number of triangles with the file name *)
  Record run := Run { exit_code : Z; saved : option (string * mesh T); announced : option (N * string) }.

  Context (imread : string -> option image).
  Context (can_write : string -> bool).
  (** geo::serialization::toFile: an output stream that does not open writes nothing, and nobody is told *)
  Definition shape_write_to (out : string) (m : mesh T) : outcome (option (string * mesh T)) :=
    Ret (if can_write out then Some (out, m) else None).
  (** geo::io::writeMeshFile without format: see exp_format; its result is ignored *)
  Definition file_write_to (out : string) (m : mesh T) : outcome (option (string * mesh T)) :=
    let* _ := exp_format out "" in Ret (if can_write out then Some (out, m) else None).
  (** the rest of main, height_image_to_shape.cpp:54-93 and height_image_to_file.cpp:51-89; an exception that is not
      caught ends the program *)
  Definition convert (parse : list string -> option request) (write : string -> mesh T -> outcome (option (string * mesh T)))
    (fuel : nat) (argv : list string) : outcome run :=
    match parse argv with
    | None => Ret (Run 1 None None)
    | Some rq =>
        match imread (rq_in rq) with
        | None => Ret (Run 1 None None)
        | Some im =>
            let* hm := from_grid fuel (image_grid (rq_bh rq) im) (rq_res rq) in
            let m := getTransformed (s_mesh (hm_base hm)) (tmake (rq_ox rq) (rq_oy rq) n0 n0 n0 n0) in
            let* w := write (rq_out rq) m in
            Ret (Run 0 w (Some (N.of_nat (List.length (m_tris m)), rq_out rq)))
        end
    end.
  Definition height_image_to_shape := convert shape_args shape_write_to.
  Definition height_image_to_file := convert file_args file_write_to.
End Tools.
Arguments request : clear implicits.
Arguments run : clear implicits.
