(** * src/OctreeNode.cpp and src/Octree.cpp *)
From Coq Require Import ZArith NArith List Bool.
From Verif Require Import Num MathTypes Outcome Mesh Box.
Import ListNotations.

Section Octree.
  Context {T : Type} {NT : Num T}.
  Local Open Scope num_scope.

  (** class OctreeNode, OctreeNode.h:35-42.  Null is the null pointer; children_[4*x+2*y+z] is [ch x y z]; the back pointer
      tree_ is only used to read resolution_, which the functions below take as an argument [res]. *)
  Inductive node := Null | Node (size split : T) (occ : bool) (ch : bool -> bool -> bool -> node).

  (** constructor, OctreeNode.cpp:13-19 *)
  Definition node_new (size : T) : node := Node size (size / n2) false (fun _ _ _ => Null).
  (** copy constructor, OctreeNode.cpp:22-36 *)
  Fixpoint node_copy (n : node) : node :=
    match n with
    | Null => Null
    | Node s sp o ch => Node s sp o (fun x y z => node_copy (ch x y z))
    end.
  Definition set_ch (ch : bool -> bool -> bool -> node) (x y z : bool) (n : node) : bool -> bool -> bool -> node :=
    fun a b c => if (Bool.eqb a x && Bool.eqb b y && Bool.eqb c z)%bool then n else ch a b c.

  (** add, OctreeNode.cpp:47-84 *)
  Fixpoint node_add (fuel : nat) (res : T) (n : node) (p : vec3 T) : outcome node :=
    match fuel with
    | O => Fuel
    | S f =>
      match n with
      | Null => UB
      | Node s sp o ch =>
        if s - nlit 1 10000000000 <? res then Ret (Node s sp true ch)
        else
          let bx := vx p >? sp in
          let by_ := vy p >? sp in
          let bz := vz p >? sp in
          let x := if bx then vx p - sp else vx p in
          let y := if by_ then vy p - sp else vy p in
          let z := if bz then vz p - sp else vz p in
          let c := match ch bx by_ bz with Null => node_new (s / n2) | Node _ _ _ _ as c => c end in
          let* c' := node_add f res c (V3 x y z) in
          Ret (Node s sp o (set_ch ch bx by_ bz c'))
      end
    end.

  (** the eight child indices in the order of the loops of getCubes *)
  Definition idx8 : list (bool * bool * bool) :=
    [(false,false,false); (false,false,true); (false,true,false); (false,true,true);
     (true,false,false); (true,false,true); (true,true,false); (true,true,true)].
  Definition b2n (b : bool) : T := if b then nofZ 1 else nofZ 0.

  (** getCubes, OctreeNode.cpp:87-111 *)
  Fixpoint node_cubes (n : node) (off : vec3 T) : list (box T) :=
    match n with
    | Null => []
    | Node s sp o ch =>
      if o then [box_make off (vadd off (V3 s s s))]
      else flat_map (fun '(x, y, z) => node_cubes (ch x y z) (vadd off (V3 (sp * b2n x) (sp * b2n y) (sp * b2n z)))) idx8
    end.

  (** the test of OctreeNode.cpp:126 and 185 *)
  Definition outside (o : vec3 T) (s : T) : bool :=
    (vx o <? n0) || (vy o <? n0) || (vz o <? n0) || (vx o >? s) || (vy o >? s) || (vz o >? s).
  Definition sel (b : bool) (sp : T) : T := if b then sp else n0.
  (** OctreeNode.cpp:169-172 and 219-222: exit of the ray from the sub box of [o], found by shooting back from [o] *)
  Definition node_exit (s : T) (dv o d : vec3 T) (t0 t1 : T) : T :=
    let b := box_make dv (V3 (vx dv + s / n2) (vy dv + s / n2) (vz dv + s / n2)) in
    let dist := snd (box_ray b (ray_make o (vopp d)) (nofZ 0) (nf32 (t1 - t0)) (n0 / n0)) in
    t0 - dist.

  (** intersect(Ray), OctreeNode.cpp:114-174; [d] is the distance output parameter.  The unused offset is omitted. *)
  Fixpoint node_ray (fuel : nat) (res : T) (n : node) (r : ray T) (t0 t1 d : T) : outcome (bool * T) :=
    match fuel with
    | O => Fuel
    | S f =>
      match n with
      | Null => UB
      | Node s sp occ ch =>
        if occ then Ret (true, d)
        else
          let o := vadd (r_o r) (vscale (r_d r) t0) in
          if outside o s then Ret (false, d)
          else
            let bx := vx o >=? sp in
            let by_ := vy o >=? sp in
            let bz := vz o >=? sp in
            let dv := V3 (sel bx sp) (sel by_ sp) (sel bz sp) in
            let* hd := match ch bx by_ bz with
                       | Null => Ret (false, d)
                       | Node _ _ _ _ as c => node_ray f res c (ray_make (vsub (r_o r) dv) (r_d r)) t0 t1 d
                       end in
            let (hit, d') := hd : bool * T in
            if hit then Ret (true, d')
            else
              let distance := node_exit s dv o (r_d r) t0 t1 in
              node_ray f res n r (nf32 (distance + res * nlit 1 10)) t1 distance
      end
    end.

  (** raytrace, OctreeNode.cpp:177-224 *)
  Fixpoint node_raytrace (fuel : nat) (res : T) (n : node) (o dir : vec3 T) (t0 t1 : T) : outcome node :=
    match fuel with
    | O => Fuel
    | S f =>
      match n with
      | Null => UB
      | Node s sp occ ch =>
        if t1 <? t0 then Ret n
        else
          let newo := vadd o (vscale dir t0) in
          if outside newo s then Ret n
          else
            let bx := vx newo >=? sp in
            let by_ := vy newo >=? sp in
            let bz := vz newo >=? sp in
            let dv := V3 (sel bx sp) (sel by_ sp) (sel bz sp) in
            let* ch' := match ch bx by_ bz with
                        | Null => Ret ch
                        | Node _ _ _ _ as c =>
                          let* c' := node_raytrace f res c (vsub o dv) dir t0 t1 in
                          Ret (set_ch ch bx by_ bz c')
                        end in
            let distance := node_exit s dv newo dir t0 t1 in
            node_raytrace f res (Node s sp false ch') o dir (nf32 (distance + res * nlit 1 10)) t1
      end
    end.

  (** contains, OctreeNode.cpp:227-259 *)
  Fixpoint node_contains (n : node) (p : vec3 T) : bool :=
    match n with
    | Null => false
    | Node s sp o ch => if o then true else node_contains (ch (vx p >? sp) (vy p >? sp) (vz p >? sp)) p
    end.

  (** for (int x = s; x <= e; ++x) with s, e in {0,1} *)
  Definition range01 (s e : bool) : list bool :=
    match s, e with
    | false, false => [false]
    | false, true => [false; true]
    | true, true => [true]
    | true, false => []
    end.
  (** intersect(Box), OctreeNode.cpp:262-300; only the bounds of the box are used *)
  Fixpoint node_box (n : node) (mn mx : vec3 T) : bool :=
    match n with
    | Null => false
    | Node s sp o ch =>
      if o then true
      else
        existsb (fun x => existsb (fun y => existsb (fun z =>
          let off := V3 (sp * b2n x) (sp * b2n y) (sp * b2n z) in
          node_box (ch x y z) (vsub mn off) (vsub mx off))
          (range01 (vz mn >? sp) (vz mx >? sp))) (range01 (vy mn >? sp) (vy mx >? sp))) (range01 (vx mn >? sp) (vx mx >? sp))
    end.

  (** ** class Octree, Octree.h:52-62.  o_base is the Shape base object: its mesh_ is shadowed by Octree's own mesh_ (o_mesh),
      its bounding box cache is the one getBoundingBox uses. *)
  Record octree := Oct { o_base : shape T; o_res : T; o_off : vec3 T; o_max : vec3 T; o_size : T; o_root : node; o_mesh : mesh T }.

  (** loop of setResolution, Octree.cpp:58-62 *)
  Fixpoint halve (fuel : nat) (r req : T) : outcome T :=
    match fuel with
    | O => Fuel
    | S f => if r >? req then halve f (r / n2) req else Ret r
    end.
  (** setResolution, Octree.cpp:56-64 *)
  Definition oct_setRes (fuel : nat) (o : octree) (req : T) : outcome octree :=
    let* r := halve fuel (o_size o) req in
    Ret (Oct (o_base o) r (o_off o) (o_max o) (o_size o) (o_root o) (o_mesh o)).
  (** constructor, Octree.cpp:15-20 *)
  Definition oct_new (fuel : nat) (size req : T) : outcome octree :=
    let l := (- size) / n2 in let h := size / n2 in
    oct_setRes fuel (Oct shape_new n0 (V3 l l l) (V3 h h h) size (node_new size) mesh_new) req.
  (** copy constructor and clone, Octree.cpp:22-26, 33-36 *)
  Definition oct_copy (o : octree) : octree :=
    Oct (o_base o) (o_res o) (o_off o) (o_max o) (o_size o) (node_copy (o_root o)) mesh_new.
  (** clear, Octree.cpp:38-43 *)
  Definition oct_clear (o : octree) : octree :=
    Oct (o_base o) (o_res o) (o_off o) (o_max o) (o_size o) (node_new (o_size o)) (mesh_clear (o_mesh o)).
  (** add, Octree.cpp:45-49 *)
  Definition oct_add (fuel : nat) (o : octree) (p : vec3 T) : outcome octree :=
    let* n := node_add fuel (o_res o) (o_root o) (vsub p (o_off o)) in
    Ret (Oct (o_base o) (o_res o) (o_off o) (o_max o) (o_size o) n (mesh_clear (o_mesh o))).
  (** getCubes, Octree.cpp:51-54; the vector is appended to *)
  Definition oct_cubes (o : octree) (cubes : list (box T)) : list (box T) := cubes ++ node_cubes (o_root o) (o_off o).
  (** getMaxRadius, Octree.cpp:88-91 *)
  Definition oct_maxRadius (o : octree) : T := o_size o.
  (** intersect(Ray), Octree.cpp:71-86; d0 is the incoming value of the distance parameter *)
  Definition oct_ray (fuel : nat) (o : octree) (r : ray T) (t0 t1 d0 : T) : outcome (bool * T) :=
    let (hit, dist) := box_ray (box_make (o_off o) (o_max o)) r t0 t1 (n0 / n0) in
    if negb hit then Ret (false, d0)
    else
      let dist := nmax dist n0 in
      node_ray fuel (o_res o) (o_root o) (ray_make (vsub (r_o r) (o_off o)) (r_d r)) (nf32 (t0 + dist + (o_res o * nlit 1 10))) t1 d0.
  (** raytrace, Octree.cpp:93-108 *)
  Definition oct_raytrace (fuel : nat) (o : octree) (r : ray T) (t0 t1 : T) : outcome octree :=
    let (hit, dist) := box_ray (box_make (o_off o) (o_max o)) r t0 t1 (n0 / n0) in
    if negb hit then Ret o
    else
      let dist := nmax dist n0 in
      let* n := node_raytrace fuel (o_res o) (o_root o) (vsub (r_o r) (o_off o)) (r_d r) (nf32 (t0 + dist + (o_res o * nlit 1 10))) t1 in
      let* o' := oct_add fuel (Oct (o_base o) (o_res o) (o_off o) (o_max o) (o_size o) n (o_mesh o)) (vadd (r_o r) (vscale (r_d r) t1)) in
      Ret (Oct (o_base o') (o_res o') (o_off o') (o_max o') (o_size o') (o_root o') (mesh_clear (o_mesh o'))).
  (** contains, Octree.cpp:110-118 *)
  Definition oct_contains (o : octree) (p : vec3 T) : bool :=
    if (vx p <? vx (o_off o)) || (vy p <? vy (o_off o)) || (vz p <? vz (o_off o)) ||
       (vx p >? vx (o_max o)) || (vy p >? vy (o_max o)) || (vz p >? vz (o_max o)) then false
    else node_contains (o_root o) (vsub p (o_off o)).
  (** intersect(Box), Octree.cpp:120-133 *)
  Definition oct_box (o : octree) (b : box T) : bool :=
    let mn := b_min b in let mx := b_max b in let off := o_off o in let m := o_max o in
    if (vx mx <? vx off) || (vy mx <? vy off) || (vz mx <? vz off) || (vx mn >? vx m) || (vy mn >? vy m) || (vz mn >? vz m) then false
    else node_box (o_root o)
           (vsub (V3 (nmax (vx mn) (vx off)) (nmax (vy mn) (vy off)) (nmax (vz mn) (vz off))) off)
           (vsub (V3 (nmin (vx mx) (vx m)) (nmin (vy mx) (vy m)) (nmin (vz mx) (vz m))) off).
  (** getMesh, Octree.cpp:135-151 *)
  Definition oct_mesh (o : octree) : outcome (mesh T * octree) :=
    if mesh_empty (o_mesh o) then
      let m := fold_left (fun m b => mesh_add m (b_mesh b)) (oct_cubes o []) (o_mesh o) in
      let* m' := filterOverlapping m in
      Ret (m', Oct (o_base o) (o_res o) (o_off o) (o_max o) (o_size o) (o_root o) m')
    else Ret (o_mesh o, o).
  (** getBoundingBox, inherited: Shape.cpp:475-501 with the virtual getMesh above *)
  Definition oct_bbox (o : octree) : outcome (box T * octree) :=
    if s_bbv (o_base o) then
      let (b, s) := shape_bbox (o_base o) mesh_new in
      Ret (b, Oct s (o_res o) (o_off o) (o_max o) (o_size o) (o_root o) (o_mesh o))
    else
      let* mo := oct_mesh o in
      let (m, o') := mo : mesh T * octree in
      let (b, s) := shape_bbox (o_base o') m in
      Ret (b, Oct s (o_res o') (o_off o') (o_max o') (o_size o') (o_root o') (o_mesh o')).
  (** empty, inherited: Shape.h:105 reads Shape's mesh_, not Octree's *)
  Definition oct_empty (o : octree) : bool := mesh_empty (s_mesh (o_base o)).
  (** setMesh, inherited: Shape.cpp:508-512 *)
  Definition oct_setMesh (o : octree) (m : mesh T) : octree :=
    Oct (shape_setMesh (o_base o) m) (o_res o) (o_off o) (o_max o) (o_size o) (o_root o) (o_mesh o).

  (** histories on one octree *)
  Inductive oct_op :=
  | OAdd (p : vec3 T) | OClear | OSetRes (req : T) | ORaytrace (r : ray T) (t0 t1 : T)
  | OGetMesh | OGetBBox | OSetMesh (m : mesh T) | OCopy.
  Definition oct_step (fuel : nat) (o : octree) (op : oct_op) : outcome octree :=
    match op with
    | OAdd p => oct_add fuel o p
    | OClear => Ret (oct_clear o)
    | OSetRes r => oct_setRes fuel o r
    | ORaytrace r t0 t1 => oct_raytrace fuel o r t0 t1
    | OGetMesh => let* mo := oct_mesh o in Ret (snd mo)
    | OGetBBox => let* bo := oct_bbox o in Ret (snd bo)
    | OSetMesh m => Ret (oct_setMesh o m)
    | OCopy => Ret (oct_copy o)
    end.
  Fixpoint oct_run (fuel : nat) (o : octree) (ops : list oct_op) : outcome octree :=
    match ops with
    | [] => Ret o
    | op :: r => let* o' := oct_step fuel o op in oct_run fuel o' r
    end.
End Octree.
Arguments node : clear implicits.
Arguments octree : clear implicits.
Arguments oct_op : clear implicits.
