(** * Specifications for mesh import and export, independent of the loops in Import.v *)
From Coq Require Import ZArith NArith List Bool Reals String Ascii.
From Verif Require Import Num MathTypes Mesh Import Spec SpecLaser.
Import ListNotations.

Section SpecImport.
  Context {T : Type} {NT : Num T}.
  (** the mesh instances of a scene tree in the order children first, each with the chain of node
      transformations from the root down to the node *)
  Fixpoint s_insts (chain : list (trans3 T)) (n : ainode T) : list (list (trans3 T) * N) :=
    match n with
    | AiNode tf kids ms => flat_map (s_insts (chain ++ [tf])) kids ++ map (fun i => (chain ++ [tf], i)) ms
    end.
  (** the triangular faces as vertex triples; None when a triangular face has a dangling index *)
  Fixpoint s_faces {A : Type} (vs : list A) (fs : list (list N)) : option (list (A * A * A)) :=
    match fs with
    | [] => Some []
    | [i; j; k] :: r =>
        match s_nth vs (N.to_nat i), s_nth vs (N.to_nat j), s_nth vs (N.to_nat k), s_faces vs r with
        | Some a, Some b, Some c, Some l => Some ((a, b, c) :: l)
        | _, _, _, _ => None
        end
    | _ :: r => s_faces vs r
    end.
  (** equality of millimetre keys (None: not representable as int) *)
  Definition s_keyb (a b : option (Z * Z * Z)) : bool :=
    match a, b with
    | Some (x, y, z), Some (x', y', z') => (Z.eqb x x' && Z.eqb y y' && Z.eqb z z')%bool
    | None, None => true
    | _, _ => false
    end.
  (** the first vertex of the list with the key of v *)
  Definition s_rep (key : vec3 T -> option (Z * Z * Z)) (vs : list (vec3 T)) (v : vec3 T) : vec3 T :=
    match find (fun w => s_keyb (key v) (key w)) vs with Some w => w | None => v end.
  Definition s_key3 (key : vec3 T -> option (Z * Z * Z)) (t : vec3 T * vec3 T * vec3 T) :=
    let '(a, b, c) := t in (key a, key b, key c).
  Definition s_key3b (a b : option (Z * Z * Z) * option (Z * Z * Z) * option (Z * Z * Z)) : bool :=
    let '(x, y, z) := a in let '(x', y', z') := b in (s_keyb x x' && s_keyb y y' && s_keyb z z')%bool.
  Definition map3 {A B : Type} (f : A -> B) (t : A * A * A) : B * B * B := let '(a, b, c) := t in (f a, f b, f c).

  (** what one instance contributes: points and triangles *)
  Definition s_inst_points (key : vec3 T -> option (Z * Z * Z)) (place : vec3 T -> vec3 T) (am : aimesh T) : list (vec3 T) :=
    map place (s_firsts s_keyb key [] (am_verts am)).
  Definition s_inst_soup (key : vec3 T -> option (Z * Z * Z)) (place : vec3 T -> vec3 T) (am : aimesh T)
    : option (list (vec3 T * vec3 T * vec3 T)) :=
    option_map (fun l => map (map3 (fun v => place (s_rep key (am_verts am) v))) (s_firsts s_key3b (s_key3 key) [] l))
               (s_faces (am_verts am) (am_faces am)).
  (** an instance is well formed: mesh index, all keys and all triangular faces in range *)
  Definition s_am_ok (key : vec3 T -> option (Z * Z * Z)) (am : aimesh T) : Prop :=
    (forall v, In v (am_verts am) -> key v <> None) /\ s_faces (am_verts am) (am_faces am) <> None.
  Definition s_inst_ok (key : vec3 T -> option (Z * Z * Z)) (ams : list (aimesh T)) (i : N) : Prop :=
    exists am, s_nth ams (N.to_nat i) = Some am /\ s_am_ok key am.
  (** number of vertices of all instances *)
  Definition s_nverts (ams : list (aimesh T)) (is_ : list N) : nat :=
    fold_right (fun i n => (match s_nth ams (N.to_nat i) with Some am => List.length (am_verts am) | None => O end + n)%nat) O is_.

  (** the contributions of a list of instances, in order *)
  Fixpoint s_all_points (key : vec3 T -> option (Z * Z * Z)) (place : list (trans3 T) -> vec3 T -> vec3 T)
      (ams : list (aimesh T)) (l : list (list (trans3 T) * N)) : list (vec3 T) :=
    match l with
    | [] => []
    | (ch, i) :: r =>
        match s_nth ams (N.to_nat i) with Some am => s_inst_points key (place ch) am | None => [] end ++
        s_all_points key place ams r
    end.
  Fixpoint s_all_soup (key : vec3 T -> option (Z * Z * Z)) (place : list (trans3 T) -> vec3 T -> vec3 T)
      (ams : list (aimesh T)) (l : list (list (trans3 T) * N)) : option (list (vec3 T * vec3 T * vec3 T)) :=
    match l with
    | [] => Some []
    | (ch, i) :: r =>
        match s_nth ams (N.to_nat i) with
        | Some am => match s_inst_soup key (place ch) am, s_all_soup key place ams r with
                     | Some a, Some b => Some (a ++ b)
                     | _, _ => None
                     end
        | None => None
        end
    end.
End SpecImport.

Local Open Scope R_scope.
(** where a vertex ends up: the transformations of the chain from the innermost node outwards, then the scale *)
Definition s_placed (scale : vec3 R) (transform : bool) (chain : list (trans3 R)) (v : vec3 R) : vec3 R :=
  let p := if transform then fold_right s_moved v chain else v in
  V3 (vx scale * vx p) (vy scale * vy p) (vz scale * vz p).

(** file name extensions known to the exporter and their assimp format identifiers *)
Definition s_formats : list (string * string) :=
  [("3ds", "3ds"); ("3mf", "3mf"); ("dae", "collada"); ("ply", "ply"); ("obj", "obj"); ("stp", "stp"); ("stl", "stl");
   ("x", "x"); ("x3d", "x3d")]%string.
(** the extension: what follows the last dot; None without a dot *)
Fixpoint s_ext (s : string) : option string :=
  match s with
  | EmptyString => None
  | String c r => match s_ext r with Some e => Some e | None => if Ascii.eqb c "." then Some r else None end
  end.
(** the format of a file name: that of its extension, or none (the empty identifier) *)
Definition s_format_of (name : string) : string :=
  match s_ext name with
  | Some e => match find (fun p => String.eqb (fst p) e) s_formats with Some (_, f) => f | None => EmptyString end
  | None => EmptyString
  end.
