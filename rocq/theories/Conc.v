(** * Const queries of a shared shape, access by access (src/Mesh.cpp, src/Shape.cpp)

    The const member functions write [mutable] members without synchronisation.  Here every query is a program that does one
    access to a mutable member at a time; threads interleave at these accesses (sequential consistency).  Points and triangle
    indices are not changed by const functions and are read without a step.
    Simplifications: a Vector3 is read or written in one step, and so is push_back to the triangle cache (in C++ an interleaving
    inside push_back, or any race, is undefined; this makes the model milder than the language). *)
From Coq Require Import ZArith NArith List Bool.
From Verif Require Import Num MathTypes Outcome Mesh Box ShapeQuery.
Import ListNotations.

Section Conc.
  Context {T : Type} {NT : Num T}.
  Local Open Scope num_scope.

  (** mutable members: Mesh.h:136-143, Shape.h:116-118 *)
  Inductive loc := LR | LR2 | LTC | LBV | LMin | LMax.
  Definition val (l : loc) : Type :=
    match l with LR | LR2 => T | LTC => list (tri T) | LBV => bool | LMin | LMax => vec3 T end.
  Definition get (l : loc) (s : shape T) : val l :=
    match l with
    | LR => m_r (s_mesh s) | LR2 => m_r2 (s_mesh s) | LTC => m_tc (s_mesh s)
    | LBV => s_bbv s | LMin => s_bbmin s | LMax => s_bbmax s
    end.
  Definition set (l : loc) : val l -> shape T -> shape T :=
    match l return val l -> shape T -> shape T with
    | LR => fun v s => let m := s_mesh s in
        Shape_ (MkMesh (m_points m) (m_tris m) v (m_r2 m) (m_tc m)) (s_bbv s) (s_bbmin s) (s_bbmax s)
    | LR2 => fun v s => let m := s_mesh s in
        Shape_ (MkMesh (m_points m) (m_tris m) (m_r m) v (m_tc m)) (s_bbv s) (s_bbmin s) (s_bbmax s)
    | LTC => fun v s => let m := s_mesh s in
        Shape_ (MkMesh (m_points m) (m_tris m) (m_r m) (m_r2 m) v) (s_bbv s) (s_bbmin s) (s_bbmax s)
    | LBV => fun v s => Shape_ (s_mesh s) v (s_bbmin s) (s_bbmax s)
    | LMin => fun v s => Shape_ (s_mesh s) (s_bbv s) v (s_bbmax s)
    | LMax => fun v s => Shape_ (s_mesh s) (s_bbv s) (s_bbmin s) v
    end.

  (** a query in progress; Bad: out-of-range index *)
  Inductive prog (A : Type) :=
  | Done (a : A)
  | Bad
  | Rd (l : loc) (k : val l -> prog A)
  | Wr (l : loc) (v : val l) (k : prog A)
  | Push (t : tri T) (k : prog A).
  Arguments Done {A}. Arguments Bad {A}. Arguments Rd {A}. Arguments Wr {A}. Arguments Push {A}.

  Fixpoint bind {A B} (p : prog A) (g : A -> prog B) : prog B :=
    match p with
    | Done a => g a
    | Bad => Bad
    | Rd l k => Rd l (fun v => bind (k v) g)
    | Wr l v k => Wr l v (bind k g)
    | Push t k => Push t (bind k g)
    end.
  Definition lift {A} (o : outcome A) : prog A := match o with Ret a => Done a | _ => Bad end.

  (** getSquaredMaxRadius, Mesh.cpp:145-155.  std::max returns a reference: if the cache is not smaller it is read again. *)
  Fixpoint p_sq_loop (pts : list (vec3 T)) (k : prog T) : prog T :=
    match pts with
    | [] => k
    | p :: r =>
        Rd LR2 (fun c : T => if c <? vlength2 p then Wr LR2 (vlength2 p) (p_sq_loop r k)
                         else Rd LR2 (fun c' : T => Wr LR2 c' (p_sq_loop r k)))
    end.
  Definition p_sq (m : mesh T) : prog T :=
    let fin := Rd LR2 (fun c : T => Done c) in
    Rd LR2 (fun c : T => if c =? n0 then p_sq_loop (m_points m) fin else fin).
  (** getMaxRadius, Mesh.cpp:157-164 *)
  Definition p_r (m : mesh T) : prog T :=
    let fin := Rd LR (fun c : T => Done c) in
    Rd LR (fun c : T => if c =? n0 then bind (p_sq m) (fun s => Wr LR (nsqrt s) fin) else fin).
  (** getTriangles, Mesh.cpp:64-74; the caller reads the vector through the returned reference: the last step *)
  Fixpoint p_tri_loop (pts : list (vec3 T)) (ts : list triI) (k : prog (list (tri T))) : prog (list (tri T)) :=
    match ts with
    | [] => k
    | t :: r =>
        match point_at pts (ti1 t), point_at pts (ti2 t), point_at pts (ti3 t) with
        | Some p1, Some p2, Some p3 => Push (Tri p1 p2 p3) (p_tri_loop pts r k)
        | _, _, _ => Bad
        end
    end.
  Definition p_tri (m : mesh T) : prog (list (tri T)) :=
    let fin := Rd LTC (fun c : list (tri T) => Done c) in
    Rd LTC (fun c : list (tri T) => match c with [] => p_tri_loop (m_points m) (m_tris m) fin | _ => fin end).
  (** Shape::getBoundingBox, Shape.cpp:475-501 *)
  Definition p_bb (m : mesh T) : prog (box T) :=
    let fin := Rd LMin (fun a : vec3 T => Rd LMax (fun b : vec3 T => Done (box_make a b))) in
    let (mn, mx) := bb_of_points (m_points m) in
    Rd LBV (fun b : bool => if b then fin else Wr LMin mn (Wr LMax mx (Wr LBV true fin))).
  (** Shape::contains, Shape.cpp:278-473 *)
  Definition p_contains (m : mesh T) (p : vec3 T) : prog bool :=
    bind (p_sq m) (fun sq => if vlength2 p >? sq then Done false
      else bind (p_r m) (fun r =>
        lift (contains_loop (m_points m) p (V3 (nlit 11 10 * r) n0 n0) (m_tris m) (Hits 0 (fun _ _ => 0%Z) (fun _ => 0%Z))))).
  (** Shape::intersect(Vector3, double), Shape.cpp:205-270 *)
  Definition p_sphere (m : mesh T) (p : vec3 T) (radius : T) : prog bool :=
    bind (p_r m) (fun r => if vlength p - radius >? r then Done false
      else bind (lift (if radius >? n0 then sphere_loop (m_points m) p (radius * radius) (m_tris m) else Ret false))
             (fun hit : bool => if hit then Done true else p_contains m p)).

  (** the queries and their answers *)
  Inductive query := QSq | QR | QTri | QBB | QContains (p : vec3 T) | QSphere (p : vec3 T) (radius : T).
  Inductive ans := AT (x : T) | ATri (l : list (tri T)) | ABox (b : box T) | ABool (b : bool).
  Definition p_query (m : mesh T) (q : query) : prog ans :=
    match q with
    | QSq => bind (p_sq m) (fun x => Done (AT x))
    | QR => bind (p_r m) (fun x => Done (AT x))
    | QTri => bind (p_tri m) (fun x => Done (ATri x))
    | QBB => bind (p_bb m) (fun x => Done (ABox x))
    | QContains p => bind (p_contains m p) (fun x => Done (ABool x))
    | QSphere p r => bind (p_sphere m p r) (fun x => Done (ABool x))
    end.
  (** a thread asks one query after the other and collects the answers *)
  Fixpoint p_thread (m : mesh T) (qs : list query) : prog (list ans) :=
    match qs with
    | [] => Done []
    | q :: r => bind (p_query m q) (fun a => bind (p_thread m r) (fun l => Done (a :: l)))
    end.

  (** one access of a program; all accesses of a program running alone *)
  Definition step1 {A} (p : prog A) (s : shape T) : prog A * shape T :=
    match p with
    | Done a => (p, s)
    | Bad => (p, s)
    | Rd l k => (k (get l s), s)
    | Wr l v k => (k, set l v s)
    | Push t k => (k, set LTC (get LTC s ++ [t]) s)
    end.
  Fixpoint run_alone {A} (p : prog A) (s : shape T) : outcome (A * shape T) :=
    match p with
    | Done a => Ret (a, s)
    | Bad => UB
    | Rd l k => run_alone (k (get l s)) s
    | Wr l v k => run_alone k (set l v s)
    | Push t k => run_alone k (set LTC (get LTC s ++ [t]) s)
    end.

  (** threads on one shape; a schedule says which thread does the next access *)
  Definition config : Type := (shape T * list (prog (list ans)))%type.
  Fixpoint upd {A} (l : list A) (i : nat) (x : A) : list A :=
    match l, i with
    | [], _ => []
    | _ :: r, O => x :: r
    | a :: r, S i => a :: upd r i x
    end.
  Definition step (c : config) (i : nat) : config :=
    match nth_error (snd c) i with
    | Some p => let (p', s') := step1 p (fst c) in (s', upd (snd c) i p')
    | None => c
    end.
  Definition exec (c : config) (sched : list nat) : config := fold_left step sched c.
  Definition start (s : shape T) (qss : list (list query)) : config := (s, map (p_thread (s_mesh s)) qss).

  (** the member the next access goes to, and whether it writes *)
  Definition next_access {A} (p : prog A) : option (loc * bool) :=
    match p with
    | Done _ => None
    | Bad => None
    | Rd l _ => Some (l, false)
    | Wr l _ _ => Some (l, true)
    | Push _ _ => Some (LTC, true)
    end.
  (** a data race: two threads about to access the same member, one of them writing *)
  Definition race (c : config) : Prop :=
    exists i j p q l w w', i <> j /\ nth_error (snd c) i = Some p /\ nth_error (snd c) j = Some q /\
      next_access p = Some (l, w) /\ next_access q = Some (l, w') /\ w || w' = true.

  (** the sequential answer of a query and the shape afterwards, by the models of the member functions *)
  Definition seq_ans (s : shape T) (q : query) : outcome ans :=
    let m := s_mesh s in
    match q with
    | QSq => Ret (AT (fst (getSquaredMaxRadius m)))
    | QR => Ret (AT (fst (getMaxRadius m)))
    | QTri => let* (l, _) := getTriangles m in Ret (ATri l)
    | QBB => Ret (ABox (fst (shape_bbox s m)))
    | QContains p => let* b := mesh_contains m p in Ret (ABool b)
    | QSphere p r => let* b := mesh_sphere m p r in Ret (ABool b)
    end.
End Conc.
Arguments prog T A : clear implicits.
Arguments Done {T A}. Arguments Bad {T A}. Arguments Rd {T A}. Arguments Wr {T A}. Arguments Push {T A}.
