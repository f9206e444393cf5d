(** * Shape::write / Shape::read and src/serialization.cpp

    Streams are byte lists with a fail flag.  Little-endian 32-bit int and 64-bit double, as on
    every platform the project is built for; doubles are kept as their 8 raw bytes, so all bit
    patterns (NaN payloads, signed zeros) are distinguished.  A mesh is represented by what is
    written and read: its points and its index triangles (the caches of Mesh are not involved;
    Shape::read starts from an empty mesh and addPoint/addTriangle append, Mesh.cpp:22-39). *)
From Coq Require Import ZArith NArith List Bool Ascii String.
From Verif Require Import MathTypes Outcome Mesh.
Import ListNotations.

Definition byte := ascii.
Definition NUL : byte := Ascii.zero.

(** ** memory representations *)
(** the four bytes of a 32-bit word, least significant first *)
Definition enc32 (n : N) : list byte :=
  [ascii_of_N (n mod 256); ascii_of_N (n / 256 mod 256); ascii_of_N (n / 65536 mod 256); ascii_of_N (n / 16777216 mod 256)]%N.
Definition dec32 (l : list byte) : N :=
  match l with
  | [a; b; c; d] => N_of_ascii a + 256 * N_of_ascii b + 65536 * N_of_ascii c + 16777216 * N_of_ascii d
  | _ => 0
  end%N.
(** reinterpretation of the word as a signed int *)
Definition to_int (n : N) : Z := if (n <? 2147483648)%N then Z.of_N n else (Z.of_N n - 4294967296)%Z.

(** a double as its 8 bytes *)
Record w64 := W64 { wb0 : byte; wb1 : byte; wb2 : byte; wb3 : byte; wb4 : byte; wb5 : byte; wb6 : byte; wb7 : byte }.
Definition enc64 (w : w64) : list byte := [wb0 w; wb1 w; wb2 w; wb3 w; wb4 w; wb5 w; wb6 w; wb7 w].
Definition dec64 (l : list byte) : w64 :=
  match l with
  | [a; b; c; d; e; f; g; h] => W64 a b c d e f g h
  | _ => W64 NUL NUL NUL NUL NUL NUL NUL NUL
  end.
(** the NAN macro converted to double: 0x7ff8000000000000 *)
Definition wnan : w64 := W64 NUL NUL NUL NUL NUL NUL (ascii_of_N 248) (ascii_of_N 127).

(** ** std::istream::read *)
Record istream := IS { is_rest : list byte; is_fail : bool }.
(** read n bytes into buf: a stream in fail state leaves the buffer alone; a short read stores what
    is there and sets eofbit|failbit *)
Definition sread (n : nat) (buf : list byte) (s : istream) : list byte * istream :=
  if is_fail s then (buf, s)
  else
    let got := firstn n (is_rest s) in
    (got ++ skipn (List.length got) buf, IS (skipn n (is_rest s)) (Nat.ltb (List.length (is_rest s)) n)).

(** ** Shape::write, Shape.cpp:520-551; the int casts of the sizes are modulo 2^32 *)
Record smesh := SM { sm_points : list (vec3 w64); sm_tris : list triI }.

Definition write_point (v : vec3 w64) : list byte := enc64 (vx v) ++ enc64 (vy v) ++ enc64 (vz v).
Definition write_tri (t : triI) : list byte := enc32 (ti1 t) ++ enc32 (ti2 t) ++ enc32 (ti3 t).
Definition mesh_tag : list byte := list_ascii_of_string "mesh    ".
Definition write_body (m : smesh) : list byte :=
  enc32 (N.of_nat (List.length (sm_points m)) mod 4294967296) ++ List.concat (map write_point (sm_points m)) ++
  enc32 (N.of_nat (List.length (sm_tris m)) mod 4294967296) ++ List.concat (map write_tri (sm_tris m)).
Definition shape_write (m : smesh) : list byte := mesh_tag ++ write_body m.
(** serialization::serialize, serialization.cpp:22-30 *)
Definition serialize (m : smesh) : list byte := shape_write m.

(** ** Shape::read, Shape.cpp:553-586 *)
Definition read_int (s : istream) : Z * istream :=
  let (b, s) := sread 4 (enc32 0) s in (to_int (dec32 b), s).
Definition read_double (s : istream) : w64 * istream :=
  let (b, s) := sread 8 (enc64 wnan) s in (dec64 b, s).

Fixpoint read_points (n : nat) (acc : list (vec3 w64)) (s : istream) : list (vec3 w64) * istream :=
  match n with
  | O => (acc, s)
  | S n' =>
      let (x, s) := read_double s in
      let (y, s) := read_double s in
      let (z, s) := read_double s in
      read_points n' (acc ++ [V3 x y z]) s
  end.
(** the int indices are passed to addTriangle(unsigned, unsigned, unsigned) *)
Definition read_idx (s : istream) : N * istream :=
  let (i, s) := read_int s in (Z.to_N (i mod 4294967296)%Z, s).
Fixpoint read_tris (n : nat) (acc : list triI) (s : istream) : list triI * istream :=
  match n with
  | O => (acc, s)
  | S n' =>
      let (i1, s) := read_idx s in
      let (i2, s) := read_idx s in
      let (i3, s) := read_idx s in
      read_tris n' (acc ++ [TI i1 i2 i3]) s
  end.
Definition shape_read (s : istream) : smesh * istream :=
  let (p_size, s) := read_int s in
  let (pts, s) := read_points (Z.to_nat p_size) [] s in
  let (t_size, s) := read_int s in
  let (ts, s) := read_tris (Z.to_nat t_size) [] s in
  (SM pts ts, s).

(** ** the deserializer registry, serialization.cpp:16, :46-54 *)
Section Registry.
  Context {M : Type}.                 (* deserialization_method *)
  Definition registry := list (list byte * M).

  Fixpoint bytes_eqb (a b : list byte) : bool :=
    match a, b with
    | [], [] => true
    | x :: a', y :: b' => Ascii.eqb x y && bytes_eqb a' b'
    | _, _ => false
    end.
  Fixpoint reg_find (k : list byte) (r : registry) : option M :=
    match r with
    | [] => None
    | (k', m) :: r' => if bytes_eqb k k' then Some m else reg_find k r'
    end.
  (** registerDeserializer: the type name is blank-padded / cut to 8 characters *)
  Definition pad8 (k : list byte) : list byte := firstn 8 (k ++ list_ascii_of_string "        ").
  Definition registerDeserializer (k : list byte) (m : M) (r : registry) : registry := (pad8 k, m) :: r.

  (** std::string built from a char pointer: the bytes in front of the first NUL; None if there is none *)
  Fixpoint cstring (mem : list byte) : option (list byte) :=
    match mem with
    | [] => None
    | c :: r => if Ascii.eqb c NUL then Some [] else option_map (cons c) (cstring r)
    end.

  (** the lookup of deserialize, serialization.cpp:32-44.  [garbage] are the initial contents of the
      uninitialised char[8]; [behind] are the bytes that happen to follow the array in memory.  Reading
      beyond the array is undefined behaviour in C++; [deserialize_find] describes what the compiled
      code does when those bytes are [behind], [tag_terminated] says whether it stays inside the array.
      Result: the reader found (None = the null pointer is returned) and the stream handed to it. *)
  Definition read_tag (garbage : list byte) (s : istream) : list byte * istream := sread 8 garbage s.
  Definition tag_terminated (garbage : list byte) (s : istream) : bool :=
    existsb (fun c => Ascii.eqb c NUL) (fst (read_tag garbage s)).
  Definition deserialize_find (r : registry) (garbage behind : list byte) (s : istream) : outcome (option M * istream) :=
    let (tag, s) := read_tag garbage s in
    let* key := or_ub (cstring (tag ++ behind)) in
    Ret (reg_find key r, s).
End Registry.

(** deserialize with the only reader of the library, Shape::read; None = null ShapePtr *)
Definition deserialize (r : @registry unit) (garbage behind : list byte) (s : istream) : outcome (option smesh * istream) :=
  let* (f, s) := deserialize_find r garbage behind s in
  match f with
  | None => Ret (None, s)
  | Some _ => let (m, s) := shape_read s in Ret (Some m, s)
  end.

(** toFile / fromFile, serialization.cpp:56-79: a file is a byte list; an unopened input file is a stream in fail state *)
Definition toFile (m : smesh) : list byte := serialize m.
Definition fromFile (file : option (list byte)) (r : @registry unit) (garbage behind : list byte) : outcome (option smesh) :=
  let s := match file with Some b => IS b false | None => IS [] true end in
  let* (res, _) := deserialize r garbage behind s in Ret res.
