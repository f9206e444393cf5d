(** * Node ownership: src/OctreeNode.cpp and src/Octree.cpp, src/HeightMapNode.cpp and src/HeightMap.cpp with explicit pointers

    Octree.v and HeightMap.v represent a tree by its value.  Here nodes are heap blocks, root_, children_ and tree_ are
    addresses, [new] and [delete] are explicit, and several octree (height map) objects live in one memory.
    Reading, writing or freeing a block that is not live is undefined behaviour; so is any use of a dead object.
    Allocation always succeeds and never reuses an address (so a stale pointer is never mistaken for a valid one). *)
From Coq Require Import ZArith NArith List Bool.
From Verif Require Import Num MathTypes Outcome Mesh Box Octree HeightMap.
Import ListNotations.

(** ** Memory: block number a is live when the a-th entry is [Some] *)
Section Heap.
  Context {A : Type}.
  Definition heap := list (option A).
  Definition live (h : heap) (a : nat) : option A := match nth_error h a with Some (Some c) => Some c | _ => None end.
  (** access through a pointer *)
  Definition rd (h : heap) (a : nat) : outcome A := or_ub (live h a).
  Fixpoint upd (h : heap) (a : nat) (x : option A) : heap :=
    match h, a with
    | [], _ => []
    | _ :: r, O => x :: r
    | y :: r, S b => y :: upd r b x
    end.
  Definition wr (h : heap) (a : nat) (c : A) : outcome heap := let* _ := rd h a in Ret (upd h a (Some c)).
  (** operator new *)
  Definition alloc (h : heap) (c : A) : nat * heap := (length h, h ++ [Some c]).
  (** operator delete *)
  Definition free (h : heap) (a : nat) : outcome heap := let* _ := rd h a in Ret (upd h a None).
End Heap.
Arguments heap : clear implicits.

(** a loop over a list with early failure *)
Fixpoint ofold {A S} (f : S -> A -> outcome S) (l : list A) (s : S) : outcome S :=
  match l with
  | [] => Ret s
  | a :: r => let* s' := f s a in ofold f r s'
  end.
(** a search loop: [return true] at the first hit *)
Fixpoint oexists {A} (f : A -> outcome bool) (l : list A) : outcome bool :=
  match l with
  | [] => Ret false
  | a :: r => let* b := f a in if b then Ret true else oexists f r
  end.

Section Own.
  Context {T : Type} {NT : Num T}.
  Local Open Scope num_scope.

  Definition idx := (bool * bool * bool)%type.
  Definition idx_eqb (i j : idx) : bool :=
    let '(x, y, z) := i in let '(a, b, c) := j in Bool.eqb a x && Bool.eqb b y && Bool.eqb c z.
  Definition put {B} (f : idx -> B) (i : idx) (v : B) : idx -> B := fun j => if idx_eqb i j then v else f j.

  (** class OctreeNode, OctreeNode.h:35-42 *)
  Record cell := Cell { c_size : T; c_split : T; c_occ : bool; c_kid : idx -> option nat; c_tree : nat }.
  Definition set_occ (c : cell) (o : bool) : cell := Cell (c_size c) (c_split c) o (c_kid c) (c_tree c).
  Definition set_kid (c : cell) (i : idx) (p : option nat) : cell := Cell (c_size c) (c_split c) (c_occ c) (put (c_kid c) i p) (c_tree c).
  (** class Octree, Octree.h:52-62: the members of the value model, with root_ an address *)
  Record obj := Obj { q_base : shape T; q_res : T; q_off : vec3 T; q_max : vec3 T; q_size : T; q_root : nat; q_mesh : mesh T }.
  Record world := World { w_nodes : heap cell; w_objs : heap obj }.

  (** constructor, OctreeNode.cpp:13-19 *)
  Definition cell_new (size : T) (tree : nat) : cell := Cell size (size / n2) false (fun _ => None) tree.
  (** copy constructor, OctreeNode.cpp:22-36: the block is allocated, then filled child by child *)
  Fixpoint p_copy (g : nat) (h : heap cell) (a : nat) (tree : nat) : outcome (nat * heap cell) :=
    match g with
    | O => Fuel
    | S g' =>
      let* c := rd h a in
      let (b, h) := alloc h (Cell (c_size c) (c_split c) (c_occ c) (fun _ => None) tree) in
      let* h := ofold (fun h i =>
        match c_kid c i with
        | None => Ret h
        | Some k =>
          let* kh := p_copy g' h k tree in
          let (k', h) := kh : nat * heap cell in
          let* cb := rd h b in wr h b (set_kid cb i (Some k'))
        end) idx8 h in
      Ret (b, h)
    end.
  (** delete of a node, OctreeNode.cpp:38-44: the destructor deletes the children (delete of null does nothing), then the block goes *)
  Fixpoint p_delete (g : nat) (h : heap cell) (a : nat) : outcome (heap cell) :=
    match g with
    | O => Fuel
    | S g' =>
      let* c := rd h a in
      let* h := ofold (fun h i => match c_kid c i with None => Ret h | Some k => p_delete g' h k end) idx8 h in
      free h a
    end.
  (** add, OctreeNode.cpp:47-84; tree_->resolution_ is read through the back pointer *)
  Fixpoint p_add (f : nat) (os : heap obj) (h : heap cell) (a : nat) (p : vec3 T) : outcome (heap cell) :=
    match f with
    | O => Fuel
    | S f' =>
      let* c := rd h a in
      let* t := rd os (c_tree c) in
      if c_size c - nlit 1 10000000000 <? q_res t then wr h a (set_occ c true)
      else
        let sp := c_split c in
        let bx := vx p >? sp in
        let by_ := vy p >? sp in
        let bz := vz p >? sp in
        let x := if bx then vx p - sp else vx p in
        let y := if by_ then vy p - sp else vy p in
        let z := if bz then vz p - sp else vz p in
        let i := (bx, by_, bz) in
        let* kh := match c_kid c i with
                   | Some k => Ret (k, h)
                   | None =>
                     let (k, h) := alloc h (cell_new (c_size c / n2) (c_tree c)) in
                     let* h := wr h a (set_kid c i (Some k)) in
                     Ret (k, h)
                   end in
        let (k, h) := kh : nat * heap cell in
        p_add f' os h k (V3 x y z)
    end.
  (** getCubes, OctreeNode.cpp:87-111 *)
  Fixpoint p_cubes (g : nat) (h : heap cell) (a : nat) (cubes : list (box T)) (off : vec3 T) : outcome (list (box T)) :=
    match g with
    | O => Fuel
    | S g' =>
      let* c := rd h a in
      if c_occ c then Ret (cubes ++ [box_make off (vadd off (V3 (c_size c) (c_size c) (c_size c)))])
      else ofold (fun cubes i => match c_kid c i with
                                 | None => Ret cubes
                                 | Some k => let '(x, y, z) := i in
                                     p_cubes g' h k cubes (vadd off (V3 (c_split c * b2n x) (c_split c * b2n y) (c_split c * b2n z)))
                                 end) idx8 cubes
    end.
  (** intersect(Ray), OctreeNode.cpp:114-174 *)
  Fixpoint p_ray (f : nat) (os : heap obj) (h : heap cell) (a : nat) (r : ray T) (t0 t1 d : T) : outcome (bool * T) :=
    match f with
    | O => Fuel
    | S f' =>
      let* c := rd h a in
      if c_occ c then Ret (true, d)
      else
        let o := vadd (r_o r) (vscale (r_d r) t0) in
        if outside o (c_size c) then Ret (false, d)
        else
          let sp := c_split c in
          let bx := vx o >=? sp in
          let by_ := vy o >=? sp in
          let bz := vz o >=? sp in
          let dv := V3 (sel bx sp) (sel by_ sp) (sel bz sp) in
          let* hd := match c_kid c (bx, by_, bz) with
                     | None => Ret (false, d)
                     | Some k => p_ray f' os h k (ray_make (vsub (r_o r) dv) (r_d r)) t0 t1 d
                     end in
          let (hit, d') := hd : bool * T in
          if hit then Ret (true, d')
          else
            let distance := node_exit (c_size c) dv o (r_d r) t0 t1 in
            let* t := rd os (c_tree c) in
            p_ray f' os h a r (nf32 (distance + q_res t * nlit 1 10)) t1 distance
    end.
  (** raytrace, OctreeNode.cpp:177-224 *)
  Fixpoint p_raytrace (f : nat) (os : heap obj) (h : heap cell) (a : nat) (o dir : vec3 T) (t0 t1 : T) : outcome (heap cell) :=
    match f with
    | O => Fuel
    | S f' =>
      let* c := rd h a in
      if t1 <? t0 then Ret h
      else
        let newo := vadd o (vscale dir t0) in
        if outside newo (c_size c) then Ret h
        else
          let* h := wr h a (set_occ c false) in
          let sp := c_split c in
          let bx := vx newo >=? sp in
          let by_ := vy newo >=? sp in
          let bz := vz newo >=? sp in
          let dv := V3 (sel bx sp) (sel by_ sp) (sel bz sp) in
          let* h := match c_kid c (bx, by_, bz) with
                    | None => Ret h
                    | Some k => p_raytrace f' os h k (vsub o dv) dir t0 t1
                    end in
          let distance := node_exit (c_size c) dv newo dir t0 t1 in
          let* t := rd os (c_tree c) in
          p_raytrace f' os h a o dir (nf32 (distance + q_res t * nlit 1 10)) t1
    end.
  (** contains, OctreeNode.cpp:227-259 *)
  Fixpoint p_contains (g : nat) (h : heap cell) (a : nat) (p : vec3 T) : outcome bool :=
    match g with
    | O => Fuel
    | S g' =>
      let* c := rd h a in
      if c_occ c then Ret true
      else match c_kid c (vx p >? c_split c, vy p >? c_split c, vz p >? c_split c) with
           | None => Ret false
           | Some k => p_contains g' h k p
           end
    end.
  (** intersect(Box), OctreeNode.cpp:262-300 *)
  Fixpoint p_box (g : nat) (h : heap cell) (a : nat) (mn mx : vec3 T) : outcome bool :=
    match g with
    | O => Fuel
    | S g' =>
      let* c := rd h a in
      if c_occ c then Ret true
      else
        let sp := c_split c in
        oexists (fun x => oexists (fun y => oexists (fun z =>
          match c_kid c (x, y, z) with
          | None => Ret false
          | Some k => let off := V3 (sp * b2n x) (sp * b2n y) (sp * b2n z) in p_box g' h k (vsub mn off) (vsub mx off)
          end)
          (range01 (vz mn >? sp) (vz mx >? sp))) (range01 (vy mn >? sp) (vy mx >? sp))) (range01 (vx mn >? sp) (vx mx >? sp))
    end.

  (** ** class Octree.  [t] is the address of the object. *)
  (** constructor, Octree.cpp:15-20 *)
  Definition w_new (f : nat) (w : world) (size req : T) : outcome world :=
    let l := (- size) / n2 in let u := size / n2 in
    let t := length (w_objs w) in
    let (a, h) := alloc (w_nodes w) (cell_new size t) in
    let* r := halve f size req in
    Ret (World h (w_objs w ++ [Some (Obj shape_new r (V3 l l l) (V3 u u u) size a mesh_new)])).
  (** copy constructor and clone, Octree.cpp:22-26, 33-36; the copy is a new object *)
  Definition w_copy (g : nat) (w : world) (t : nat) : outcome world :=
    let* o := rd (w_objs w) t in
    let* bh := p_copy g (w_nodes w) (q_root o) (length (w_objs w)) in
    let (b, h) := bh : nat * heap cell in
    Ret (World h (w_objs w ++ [Some (Obj (q_base o) (q_res o) (q_off o) (q_max o) (q_size o) b mesh_new)])).
  (** t = u with the implicitly declared copy assignment (Octree.h declares none): memberwise, so root_ is copied as a pointer *)
  Definition w_assign (w : world) (t u : nat) : outcome world :=
    let* o := rd (w_objs w) u in
    let* os := wr (w_objs w) t o in
    Ret (World (w_nodes w) os).
  (** destructor, Octree.cpp:28-31; afterwards the object is gone *)
  Definition w_destroy (g : nat) (w : world) (t : nat) : outcome world :=
    let* o := rd (w_objs w) t in
    let* h := p_delete g (w_nodes w) (q_root o) in
    let* os := free (w_objs w) t in
    Ret (World h os).

  (** member functions that change an octree *)
  Inductive mop := MAdd (p : vec3 T) | MClear | MSetRes (req : T) | MRaytrace (r : ray T) (t0 t1 : T) | MSetMesh (m : mesh T).
  (** const member functions, with their answers; getMesh and getBoundingBox fill caches *)
  Inductive qop := QCubes | QContains (p : vec3 T) | QBox (b : box T) | QRay (r : ray T) (t0 t1 d : T) | QMesh | QBBox | QRes | QRadius | QEmpty.
  Inductive ans := ACubes (l : list (box T)) | ABool (b : bool) | AHit (b : bool) (d : T) | AMesh (m : mesh T) | ABBox (b : box T) | ANum (x : T) | ANone.

  Definition with_mesh (o : obj) (m : mesh T) : obj := Obj (q_base o) (q_res o) (q_off o) (q_max o) (q_size o) (q_root o) m.
  Definition with_base (o : obj) (s : shape T) : obj := Obj s (q_res o) (q_off o) (q_max o) (q_size o) (q_root o) (q_mesh o).
  Definition w_mod (f g : nat) (w : world) (t : nat) (m : mop) : outcome world :=
    let* o := rd (w_objs w) t in
    let put_obj (h : heap cell) (o' : obj) := let* os := wr (w_objs w) t o' in Ret (World h os) in
    match m with
    | MAdd p => (* Octree.cpp:45-49 *)
      let* h := p_add f (w_objs w) (w_nodes w) (q_root o) (vsub p (q_off o)) in
      put_obj h (with_mesh o (mesh_clear (q_mesh o)))
    | MClear => (* Octree.cpp:38-43 *)
      let* h := p_delete g (w_nodes w) (q_root o) in
      let (a, h) := alloc h (cell_new (q_size o) t) in
      put_obj h (Obj (q_base o) (q_res o) (q_off o) (q_max o) (q_size o) a (mesh_clear (q_mesh o)))
    | MSetRes req => (* Octree.cpp:56-64 *)
      let* r := halve f (q_size o) req in
      put_obj (w_nodes w) (Obj (q_base o) r (q_off o) (q_max o) (q_size o) (q_root o) (q_mesh o))
    | MRaytrace r t0 t1 => (* Octree.cpp:93-108 *)
      let (hit, dist) := box_ray (box_make (q_off o) (q_max o)) r t0 t1 (n0 / n0) in
      if negb hit then Ret w
      else
        let dist := nmax dist n0 in
        let* h := p_raytrace f (w_objs w) (w_nodes w) (q_root o) (vsub (r_o r) (q_off o)) (r_d r) (nf32 (t0 + dist + (q_res o * nlit 1 10))) t1 in
        let* h := p_add f (w_objs w) h (q_root o) (vsub (vadd (r_o r) (vscale (r_d r) t1)) (q_off o)) in
        put_obj h (with_mesh o (mesh_clear (mesh_clear (q_mesh o))))
    | MSetMesh m => put_obj (w_nodes w) (with_base o (shape_setMesh (q_base o) m)) (* Shape.cpp:508-512 *)
    end.
  (** getMesh, Octree.cpp:135-151 *)
  Definition p_mesh (g : nat) (h : heap cell) (o : obj) : outcome (mesh T * obj) :=
    if mesh_empty (q_mesh o) then
      let* cubes := p_cubes g h (q_root o) [] (q_off o) in
      let* m := filterOverlapping (fold_left (fun m b => mesh_add m (b_mesh b)) cubes (q_mesh o)) in
      Ret (m, with_mesh o m)
    else Ret (q_mesh o, o).
  Definition w_query (f g : nat) (w : world) (t : nat) (q : qop) : outcome (ans * world) :=
    let* o := rd (w_objs w) t in
    let put_obj (a : ans) (o' : obj) := let* os := wr (w_objs w) t o' in Ret (a, World (w_nodes w) os) in
    match q with
    | QCubes => let* l := p_cubes g (w_nodes w) (q_root o) [] (q_off o) in Ret (ACubes l, w) (* Octree.cpp:51-54 *)
    | QContains p => (* Octree.cpp:110-118 *)
      if (vx p <? vx (q_off o)) || (vy p <? vy (q_off o)) || (vz p <? vz (q_off o)) ||
         (vx p >? vx (q_max o)) || (vy p >? vy (q_max o)) || (vz p >? vz (q_max o)) then Ret (ABool false, w)
      else let* b := p_contains g (w_nodes w) (q_root o) (vsub p (q_off o)) in Ret (ABool b, w)
    | QBox b => (* Octree.cpp:120-133 *)
      let mn := b_min b in let mx := b_max b in let off := q_off o in let m := q_max o in
      if (vx mx <? vx off) || (vy mx <? vy off) || (vz mx <? vz off) || (vx mn >? vx m) || (vy mn >? vy m) || (vz mn >? vz m)
      then Ret (ABool false, w)
      else let* r := p_box g (w_nodes w) (q_root o)
             (vsub (V3 (nmax (vx mn) (vx off)) (nmax (vy mn) (vy off)) (nmax (vz mn) (vz off))) off)
             (vsub (V3 (nmin (vx mx) (vx m)) (nmin (vy mx) (vy m)) (nmin (vz mx) (vz m))) off) in
           Ret (ABool r, w)
    | QRay r t0 t1 d => (* Octree.cpp:71-86 *)
      let (hit, dist) := box_ray (box_make (q_off o) (q_max o)) r t0 t1 (n0 / n0) in
      if negb hit then Ret (AHit false d, w)
      else
        let dist := nmax dist n0 in
        let* hd := p_ray f (w_objs w) (w_nodes w) (q_root o) (ray_make (vsub (r_o r) (q_off o)) (r_d r)) (nf32 (t0 + dist + (q_res o * nlit 1 10))) t1 d in
        Ret (AHit (fst hd) (snd hd), w)
    | QMesh => let* mo := p_mesh g (w_nodes w) o in put_obj (AMesh (fst mo)) (snd mo)
    | QBBox => (* Shape.cpp:475-501 with the virtual getMesh *)
      if s_bbv (q_base o) then let (b, s) := shape_bbox (q_base o) mesh_new in put_obj (ABBox b) (with_base o s)
      else
        let* mo := p_mesh g (w_nodes w) o in
        let (b, s) := shape_bbox (q_base (snd mo)) (fst mo) in
        put_obj (ABBox b) (with_base (snd mo) s)
    | QRes => Ret (ANum (q_res o), w) (* Octree.cpp:66-69 *)
    | QRadius => Ret (ANum (q_size o), w) (* Octree.cpp:88-91 *)
    | QEmpty => Ret (ABool (mesh_empty (s_mesh (q_base o))), w) (* Shape.h:105 *)
    end.

  (** ** Programs over several octrees: objects are numbered in the order of their construction *)
  Inductive wop := WNew (size req : T) | WCopy (t : nat) | WAssign (t u : nat) | WDestroy (t : nat) | WMod (t : nat) (m : mop) | WAsk (t : nat) (q : qop).
  Definition w_step (f g : nat) (w : world) (op : wop) : outcome (ans * world) :=
    match op with
    | WNew size req => let* w := w_new f w size req in Ret (ANone, w)
    | WCopy t => let* w := w_copy g w t in Ret (ANone, w)
    | WAssign t u => let* w := w_assign w t u in Ret (ANone, w)
    | WDestroy t => let* w := w_destroy g w t in Ret (ANone, w)
    | WMod t m => let* w := w_mod f g w t m in Ret (ANone, w)
    | WAsk t q => w_query f g w t q
    end.
  Fixpoint w_run (f g : nat) (w : world) (ops : list wop) : outcome (list ans * world) :=
    match ops with
    | [] => Ret ([], w)
    | op :: r =>
      let* aw := w_step f g w op in
      let* lw := w_run f g (snd aw) r in
      Ret (fst aw :: fst lw, snd lw)
    end.
  Definition w_empty : world := World [] [].

  (** ** The same programs on octree values (Octree.v): a list of independent objects, nothing shared *)
  Definition v_mod (f : nat) (o : octree T) (m : mop) : outcome (octree T) :=
    match m with
    | MAdd p => oct_add f o p
    | MClear => Ret (oct_clear o)
    | MSetRes req => oct_setRes f o req
    | MRaytrace r t0 t1 => oct_raytrace f o r t0 t1
    | MSetMesh m => Ret (oct_setMesh o m)
    end.
  Definition v_query (f : nat) (o : octree T) (q : qop) : outcome (ans * octree T) :=
    match q with
    | QCubes => Ret (ACubes (oct_cubes o []), o)
    | QContains p => Ret (ABool (oct_contains o p), o)
    | QBox b => Ret (ABool (oct_box o b), o)
    | QRay r t0 t1 d => let* hd := oct_ray f o r t0 t1 d in Ret (AHit (fst hd) (snd hd), o)
    | QMesh => let* mo := oct_mesh o in Ret (AMesh (fst mo), snd mo)
    | QBBox => let* bo := oct_bbox o in Ret (ABBox (fst bo), snd bo)
    | QRes => Ret (ANum (o_res o), o)
    | QRadius => Ret (ANum (oct_maxRadius o), o)
    | QEmpty => Ret (ABool (oct_empty o), o)
    end.
  Definition v_step (f : nat) (s : heap (octree T)) (op : wop) : outcome (ans * heap (octree T)) :=
    match op with
    | WNew size req => let* o := oct_new f size req in Ret (ANone, s ++ [Some o])
    | WCopy t => let* o := rd s t in Ret (ANone, s ++ [Some (oct_copy o)])
    | WAssign t u => let* o := rd s u in let* s := wr s t o in Ret (ANone, s)
    | WDestroy t => let* s := free s t in Ret (ANone, s)
    | WMod t m => let* o := rd s t in let* o' := v_mod f o m in let* s := wr s t o' in Ret (ANone, s)
    | WAsk t q => let* o := rd s t in let* ao := v_query f o q in let* s := wr s t (snd ao) in Ret (fst ao, s)
    end.
  Fixpoint v_run (f : nat) (s : heap (octree T)) (ops : list wop) : outcome (list ans * heap (octree T)) :=
    match ops with
    | [] => Ret ([], s)
    | op :: r =>
      let* aw := v_step f s op in
      let* lw := v_run f (snd aw) r in
      Ret (fst aw :: fst lw, snd lw)
    end.

  (** ** HeightMapNode and HeightMap *)
  (** class HeightMapNode, HeightMapNode.h:36-43 *)
  Record hcell := HCell { hc_box : box T; hc_occ : bool; hc_k0 : option nat; hc_k1 : option nat; hc_k2 : option nat; hc_k3 : option nat }.
  Definition hset (c : hcell) (i : nat) (p : option nat) : hcell :=
    let 'HCell b o k0 k1 k2 k3 := c in
    match i with O => HCell b o p k1 k2 k3 | 1 => HCell b o k0 p k2 k3 | 2 => HCell b o k0 k1 p k3 | _ => HCell b o k0 k1 k2 p end.
  Definition hkids (c : hcell) : list (nat * option nat) := [(0, hc_k0 c); (1, hc_k1 c); (2, hc_k2 c); (3, hc_k3 c)]%nat.
  (** clone / copy constructor, HeightMapNode.cpp:19-32, 53-56 *)
  Fixpoint h_copy (g : nat) (h : heap hcell) (a : nat) : outcome (nat * heap hcell) :=
    match g with
    | O => Fuel
    | S g' =>
      let* c := rd h a in
      let (b, h) := alloc h (HCell (hc_box c) (hc_occ c) None None None None) in
      let* h := ofold (fun h ik =>
        match snd ik with
        | None => Ret h
        | Some k =>
          let* kh := h_copy g' h k in
          let (k', h) := kh : nat * heap hcell in
          let* cb := rd h b in wr h b (hset cb (fst ik) (Some k'))
        end) (hkids c) h in
      Ret (b, h)
    end.
  (** delete of a node: the destructor is defaulted (HeightMapNode.cpp:50), so the children stay *)
  Definition h_delete (h : heap hcell) (a : nat) : outcome (heap hcell) := free h a.
  (** createQuadTree, HeightMap.cpp:248-294, allocating: the node is created after the emptiness test (HeightMap.cpp:274), the
      children are linked one after the other (HeightMap.cpp:283-291).  [n] is the tree that the value model computes. *)
  Fixpoint h_build (h : heap hcell) (n : hnode T) : option nat * heap hcell :=
    match n with
    | HNull => (None, h)
    | HNode b o c0 c1 c2 c3 =>
      let (a, h) := alloc h (HCell b o None None None None) in
      let (k0, h) := h_build h c0 in
      let (k1, h) := h_build h c1 in
      let (k2, h) := h_build h c2 in
      let (k3, h) := h_build h c3 in
      (Some a, upd h a (Some (HCell b o k0 k1 k2 k3)))
    end.
  (** first loop of intersect, HeightMapNode.cpp:79-90; [F] is the recursive call *)
  Fixpoint h_origin (F : nat -> T -> outcome (bool * T)) (h : heap hcell) (kids : list (option nat)) (p : vec3 T) (i io : nat) (d : T) : outcome (bool * T * nat) :=
    match kids with
    | [] => Ret (false, d, io)
    | None :: rest => h_origin F h rest p (S i) io d
    | Some k :: rest =>
      let* c := rd h k in
      if box_contains (hc_box c) p then
        let* hd := F k d in
        let (hit, d') := hd : bool * T in
        if hit then Ret (true, d', io) else h_origin F h rest p (S i) i d'
      else h_origin F h rest p (S i) io d
    end.
  (** second loop, HeightMapNode.cpp:92-98 *)
  Fixpoint h_other (F : nat -> T -> outcome (bool * T)) (kids : list (option nat)) (i io : nat) (d : T) : outcome (bool * T) :=
    match kids with
    | [] => Ret (false, d)
    | None :: rest => h_other F rest (S i) io d
    | Some k :: rest =>
      if Nat.eqb i io then h_other F rest (S i) io d
      else let* hd := F k d in let (hit, d') := hd : bool * T in if hit then Ret (true, d') else h_other F rest (S i) io d'
    end.
  (** intersect, HeightMapNode.cpp:59-100 *)
  Fixpoint h_ray (g : nat) (h : heap hcell) (a : nat) (r : ray T) (t0 t1 d : T) : outcome (bool * T) :=
    match g with
    | O => Fuel
    | S g' =>
      let* c := rd h a in
      let (hit, d) := box_ray (hc_box c) r t0 t1 d in
      if negb hit then Ret (false, d)
      else if hc_occ c then Ret (true, d)
      else
        let F k d := h_ray g' h k r t0 t1 d in
        let kids := [hc_k0 c; hc_k1 c; hc_k2 c; hc_k3 c] in
        let* hdi := h_origin F h kids (r_o r) 0 5 d in
        let '(hit, d, io) := hdi : bool * T * nat in
        if hit then Ret (true, d) else h_other F kids 0 io d
    end.
  (** class HeightMap, HeightMap.h:43 *)
  Record hobj := HObj { ho_base : shape T; ho_root : option nat }.
  Record hworld := HWorld { hw_nodes : heap hcell; hw_objs : heap hobj }.
  Definition hw_empty : hworld := HWorld [] [].
  Inductive hop := HNew | HFrom (grid : list (list T)) (res : T) | HCopy (t : nat) | HAssign (t u : nat) | HDestroy (t : nat)
  | HAsk (t : nat) (r : ray T) (t0 t1 d : T).
  (** one call; the answer of intersect, if it was one *)
  Definition hw_step (f g : nat) (w : hworld) (op : hop) : outcome (option (bool * T) * hworld) :=
    match op with
    | HNew => Ret (None, HWorld (hw_nodes w) (hw_objs w ++ [Some (HObj shape_new None)])) (* HeightMap.cpp:14 *)
    | HFrom grid res => (* HeightMap.cpp:48-245; the returned object is constructed in place *)
      let* m := from_grid f grid res in
      let (p, h) := h_build (hw_nodes w) (hm_root m) in
      Ret (None, HWorld h (hw_objs w ++ [Some (HObj (hm_base m) p)]))
    | HCopy t => (* HeightMap.cpp:16-27 *)
      let* o := rd (hw_objs w) t in
      match ho_root o with
      | None => Ret (None, HWorld (hw_nodes w) (hw_objs w ++ [Some (HObj (ho_base o) None)]))
      | Some a =>
        let* bh := h_copy g (hw_nodes w) a in
        let (b, h) := bh : nat * heap hcell in
        Ret (None, HWorld h (hw_objs w ++ [Some (HObj (ho_base o) (Some b))]))
      end
    | HAssign t u => (* implicitly declared: memberwise *)
      let* o := rd (hw_objs w) u in let* os := wr (hw_objs w) t o in Ret (None, HWorld (hw_nodes w) os)
    | HDestroy t => (* HeightMap.cpp:29-32 *)
      let* o := rd (hw_objs w) t in
      let* h := match ho_root o with None => Ret (hw_nodes w) | Some a => h_delete (hw_nodes w) a end in
      let* os := free (hw_objs w) t in
      Ret (None, HWorld h os)
    | HAsk t r t0 t1 d => (* HeightMap.cpp:39-46 *)
      let* o := rd (hw_objs w) t in
      match ho_root o with
      | None => Ret (Some (false, d), w)
      | Some a => let* hd := h_ray g (hw_nodes w) a r t0 t1 d in Ret (Some hd, w)
      end
    end.
  Fixpoint hw_run (f g : nat) (w : hworld) (ops : list hop) : outcome (list (option (bool * T)) * hworld) :=
    match ops with
    | [] => Ret ([], w)
    | op :: r =>
      let* aw := hw_step f g w op in
      let* lw := hw_run f g (snd aw) r in
      Ret (fst aw :: fst lw, snd lw)
    end.

  (** the same programs on height map values (HeightMap.v): all maps constructed so far, with a flag that tells whether they are alive *)
  Definition hstate := list (hmap T * bool).
  Definition hv_step (f : nat) (s : hstate) (op : hop) : outcome (option (bool * T) * hstate) :=
    match op with
    | HNew => Ret (None, s ++ [(hm_new, true)])
    | HFrom grid res => let* m := from_grid f grid res in Ret (None, s ++ [(m, true)])
    | HCopy t => match nth_error s t with Some (m, true) => Ret (None, s ++ [(hm_copy m, true)]) | _ => UB end
    | HAssign t u => UB
    | HDestroy t => match nth_error s t with Some (m, true) => Ret (None, firstn t s ++ [(m, false)] ++ skipn (S t) s) | _ => UB end
    | HAsk t r t0 t1 d => match nth_error s t with Some (m, true) => Ret (Some (hm_ray m r t0 t1 d), s) | _ => UB end
    end.
  Fixpoint hv_run (f : nat) (s : hstate) (ops : list hop) : outcome (list (option (bool * T)) * hstate) :=
    match ops with
    | [] => Ret ([], s)
    | op :: r =>
      let* aw := hv_step f s op in
      let* lw := hv_run f (snd aw) r in
      Ret (fst aw :: fst lw, snd lw)
    end.
End Own.
Arguments cell : clear implicits.
Arguments obj : clear implicits.
Arguments world : clear implicits.
Arguments mop : clear implicits.
Arguments qop : clear implicits.
Arguments ans : clear implicits.
Arguments wop : clear implicits.
Arguments hcell : clear implicits.
Arguments hobj : clear implicits.
Arguments hworld : clear implicits.
Arguments hop : clear implicits.
Arguments hstate : clear implicits.
