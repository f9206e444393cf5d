(** * src/io/import.cpp and src/io/export.cpp

    The assimp library itself (file parsing and writing) is outside the model: a scene is the value
    assimp hands over.  Of aiMatrix4x4 only the three rows the code reads are represented, as a
    [trans3].  aiVector3D components are floats; their values are embedded in T.  The vertex indices
    kept in std::vector<int> and used as int map keys are naturals here: the casts unsigned -> int ->
    unsigned in import.cpp:92 and :125 are inverse to each other. *)
From Coq Require Import ZArith NArith List Bool Ascii String.
From Verif Require Import Num MathTypes Outcome Mesh.
Import ListNotations.

(** std::map<int, A>: an association list in increasing key order *)
Section ZMap.
  Context {A : Type}.
  Fixpoint zfind (k : Z) (l : list (Z * A)) : option A :=
    match l with
    | [] => None
    | (k', a) :: r => if Z.ltb k k' then None else if Z.ltb k' k then zfind k r else Some a
    end.
  (** l[k] = f(l[k]), operator[] creating the default [d] when the key is absent *)
  Fixpoint zupd (k : Z) (d : A) (f : A -> A) (l : list (Z * A)) : list (Z * A) :=
    match l with
    | [] => [(k, f d)]
    | (k', a) :: r =>
        if Z.ltb k k' then (k, f d) :: l
        else if Z.ltb k' k then (k', a) :: zupd k d f r
        else (k', f a) :: r
    end.
End ZMap.
Definition zmap3 (A : Type) := list (Z * list (Z * list (Z * A))).
(** the three nested find calls, import.cpp:71-84 and :110-121 *)
Definition find3 {A : Type} (k : Z * Z * Z) (m : zmap3 A) : option A :=
  let '(x, y, z) := k in
  match zfind x m with
  | Some m1 => match zfind y m1 with Some m2 => zfind z m2 | None => None end
  | None => None
  end.
(** m[x][y][z] = a, import.cpp:93; with A = unit also triangle_map[x][y].insert(z), :126 *)
Definition set3 {A : Type} (k : Z * Z * Z) (a : A) (m : zmap3 A) : zmap3 A :=
  let '(x, y, z) := k in zupd x [] (zupd y [] (zupd z a (fun _ => a))) m.

Section Import.
  Context {T : Type} {NT : Num T}.
  Local Open Scope num_scope.

  (** aiMesh: vertices and the index lists of the faces *)
  Record aimesh := AiMesh { am_verts : list (vec3 T); am_faces : list (list N) }.
  (** aiNode: transformation, children, indices of the instantiated meshes *)
  Inductive ainode := AiNode (tf : trans3 T) (kids : list ainode) (ms : list N).
  (** aiScene *)
  Record aiscene := AiScene { as_meshes : list aimesh; as_root : ainode }.

  (** the integer key of a vertex, import.cpp:66-68 *)
  Definition imp_key (scale v : vec3 T) : option (Z * Z * Z) :=
    match toint (nofZ 1000 * vx scale * vx v), toint (nofZ 1000 * vy scale * vy v), toint (nofZ 1000 * vz scale * vz v) with
    | Some ix, Some iy, Some iz => Some (ix, iy, iz)
    | _, _, _ => None
    end.
  (** the point stored for a vertex, import.cpp:88-92 *)
  Definition imp_point (pose : trans3 T) (scale : vec3 T) (transform : bool) (v : vec3 T) : vec3 T :=
    let p := if transform then tapply pose v else v in
    V3 (vx scale * vx p) (vy scale * vy p) (vz scale * vz p).

  (** vertex loop, import.cpp:62-96 *)
  Fixpoint imp_verts (pose : trans3 T) (scale : vec3 T) (transform : bool) (vs : list (vec3 T))
      (xyz : zmap3 N) (i_map : list N) (m : mesh T) : outcome (list N * mesh T) :=
    match vs with
    | [] => Ret (i_map, m)
    | v :: r =>
        let* k := or_ub (imp_key scale v) in
        match find3 k xyz with
        | Some ip => imp_verts pose scale transform r xyz (i_map ++ [ip]) m
        | None =>
            let (ip, m') := addPoint m (imp_point pose scale transform v) in
            imp_verts pose scale transform r (set3 k ip xyz) (i_map ++ [ip]) m'
        end
    end.
  (** face loop, import.cpp:100-129; faces without exactly three indices are skipped *)
  Fixpoint imp_faces (i_map : list N) (fs : list (list N)) (seen : zmap3 unit) (m : mesh T) : outcome (mesh T) :=
    match fs with
    | [] => Ret m
    | [i; j; k] :: r =>
        let* a := or_ub (nth_error i_map (N.to_nat i)) in
        let* b := or_ub (nth_error i_map (N.to_nat j)) in
        let* c := or_ub (nth_error i_map (N.to_nat k)) in
        let key := (Z.of_N a, Z.of_N b, Z.of_N c) in
        match find3 key seen with
        | Some _ => imp_faces i_map r seen m
        | None => imp_faces i_map r (set3 key Datatypes.tt seen) (addTriangle m a b c)
        end
    | _ :: r => imp_faces i_map r seen m
    end.
  (** one mesh instance, import.cpp:57-129 *)
  Definition imp_mesh (pose : trans3 T) (scale : vec3 T) (transform : bool) (am : aimesh) (m : mesh T) : outcome (mesh T) :=
    let* (i_map, m1) := imp_verts pose scale transform (am_verts am) [] [] m in
    imp_faces i_map (am_faces am) [] m1.
  (** loop over the node's meshes, import.cpp:55-130 *)
  Fixpoint imp_insts (ams : list aimesh) (pose : trans3 T) (scale : vec3 T) (transform : bool) (is_ : list N) (m : mesh T)
    : outcome (mesh T) :=
    match is_ with
    | [] => Ret m
    | i :: r =>
        let* am := or_ub (nth_error ams (N.to_nat i)) in
        let* m' := imp_mesh pose scale transform am m in
        imp_insts ams pose scale transform r m'
    end.
  (** constructMesh, import.cpp:34-131 *)
  Fixpoint constructMesh (ams : list aimesh) (node : ainode) (parent : trans3 T) (scale : vec3 T) (transform : bool) (m : mesh T)
    : outcome (mesh T) :=
    match node with
    | AiNode tf kids ms =>
        let pose := tmul parent tf in
        let* m1 := (fix loop ks m0 :=
          match ks with
          | [] => Ret m0
          | k :: r => let* m' := constructMesh ams k pose scale transform m0 in loop r m'
          end) kids m in
        imp_insts ams pose scale transform ms m1
    end.

  (** std::string::substr(size() - n): throws std::out_of_range for strings shorter than n *)
  Definition suffix (n : nat) (s : string) : outcome string :=
    if Nat.ltb (String.length s) n then Exn else Ret (substring (String.length s - n) n s).

  (** readMeshFile, import.cpp:140-182.  [scene] is the result of Assimp::Importer::ReadFile;
      the result is the mesh of the returned shape, None for the null pointer. *)
  Definition readMeshFile (filename : string) (scene : option aiscene) (scale : vec3 T) : outcome (option (mesh T)) :=
    match scene with
    | None => Ret None
    | Some sc =>
        let* e := suffix 3 filename in
        let transform := negb (String.eqb e "3ds") in
        let parent :=
          if String.eqb e "dae" then
            let 'AiNode t _ _ := as_root sc in
            tinverse (T3 (m3normalized (tR t)) (MathTypes.tt t))
          else tidentity in
        let* m := constructMesh (as_meshes sc) (as_root sc) parent scale transform mesh_new in
        Ret (Some m)
    end.

  (** ** export.cpp *)
  (** the scene built by writeMeshFile, export.cpp:37-81; a new aiNode has the identity transformation *)
  Definition exp_scene (m : mesh T) : aiscene :=
    AiScene [AiMesh (map (fun v => V3 (nf32 (vx v)) (nf32 (vy v)) (nf32 (vz v))) (m_points m))
                    (map (fun t => [ti1 t; ti2 t; ti3 t]) (m_tris m))]
            (AiNode tidentity [] [0%N]).
End Import.
Arguments aimesh : clear implicits.
Arguments ainode : clear implicits.
Arguments aiscene : clear implicits.

(** ::tolower on one char of a format name, export.cpp:84 ("C" locale).  A char above 127 is negative on the usual
    platforms, and calling tolower with a negative value other than EOF is undefined. *)
Definition tolower (c : ascii) : outcome ascii :=
  let n := nat_of_ascii c in
  if Nat.leb 128 n then UB
  else if (Nat.leb 65 n && Nat.leb n 90)%bool then Ret (ascii_of_nat (n + 32)) else Ret c.
Fixpoint lower (s : string) : outcome string :=
  match s with
  | EmptyString => Ret EmptyString
  | String c r => let* c' := tolower c in let* r' := lower r in Ret (String c' r')
  end.

(** the format selection of writeMeshFile, export.cpp:83-105 *)
Definition exp_format (filename format : string) : outcome string :=
  let* f := lower format in
  match f with
  | EmptyString =>
      let* e := suffix 3 filename in
      if String.eqb e "3ds" then Ret "3ds"%string
      else if String.eqb e "3mf" then Ret "3mf"%string
      else if String.eqb e "dae" then Ret "collada"%string
      else if String.eqb e "ply" then Ret "ply"%string
      else if String.eqb e "obj" then Ret "obj"%string
      else if String.eqb e "stp" then Ret "stp"%string
      else if String.eqb e "stl" then Ret "stl"%string
      else let* e1 := suffix 1 filename in
        if String.eqb e1 "x" then Ret "x"%string
        else if String.eqb e "x3d" then Ret "x3d"%string
        else Ret ""%string
  | _ => Ret f
  end.
