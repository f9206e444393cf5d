(** * Model of the depth camera: include/geolib/sensors/DepthCamera.h, src/sensors/DepthCamera.cpp

    Single precision arithmetic is modelled as the double operation followed by rounding to single precision
    ([nf32]); for + - * / this is the correctly rounded single precision result (double rounding is innocuous
    because 53 >= 2*24+2). No fused multiply-add.  Over the reals [nf32] is the identity. *)
From Coq Require Import ZArith NArith List Bool.
From Verif Require Import Num MathTypes Outcome Mesh.
Import ListNotations.

Section Depth.
  Context {T : Type} {NT : Num T}.
  Local Open Scope num_scope.

  (** float operators and int -> float conversion *)
  Definition fadd (a b : T) : T := nf32 (a + b).
  Definition fsub (a b : T) : T := nf32 (a - b).
  Definition fmul (a b : T) : T := nf32 (a * b).
  Definition fdiv (a b : T) : T := nf32 (a / b).
  Definition fofZ (z : Z) : T := nf32 (nofZ z).
  (** int arithmetic: overflow is undefined behaviour *)
  Definition ichk (z : Z) : outcome Z := if (Z.leb (-2147483648) z && Z.leb z 2147483647)%bool then Ret z else UB.
  (** conversion uint -> int (static_cast<int>(i_triangle), DepthCamera.cpp:464) *)
  Definition s32 (z : Z) : Z := ((z + 2147483648) mod 4294967296 - 2147483648)%Z.

  (** the camera parameters read from image_geometry::PinholeCameraModel (DepthCamera.h:231-250); the class is third party
      code, its accessors are modelled as stored values *)
  Record cam := Cam { c_w : Z; c_h : Z; c_fx : T; c_fy : T; c_cx : T; c_cy : T; c_tx : T; c_ty : T }.

  (** project3Dto2D, DepthCamera.h:210-214; the argument of the conversion to the output type *)
  Definition project3Dto2D (c : cam) (p : vec3 T) : vec2 T :=
    V2 ((c_fx c * vx p + c_tx c) / (- vz p) + c_cx c) ((c_fy c * (- vy p) + c_ty c) / (- vz p) + c_cy c).
  (** project2Dto3DX, project2Dto3DY, project2Dto3D, DepthCamera.h:216-229 *)
  Definition project2Dto3DX (c : cam) (x : Z) : T := (nofZ x - (c_cx c + c_tx c)) / c_fx c.
  Definition project2Dto3DY (c : cam) (y : Z) : T := (- (nofZ y - (c_cy c + c_ty c))) / c_fy c.
  Definition project2Dto3D (c : cam) (x y : Z) : vec3 T := V3 (project2Dto3DX c x) (project2Dto3DY c y) (nofZ (-1)).

  (** project3Dto2D<Tin, int>, DepthCamera.h:210-214: the constructor of cv::Point_<int> takes ints, so both coordinates are
      converted from double (truncation; undefined behaviour outside of int) *)
  Definition project3Dto2Di (c : cam) (p : vec3 T) : outcome (Z * Z) :=
    let q := project3Dto2D c p in
    let* x := or_ub (toint (v2x q)) in
    let* y := or_ub (toint (v2y q)) in
    Ret (x, y).

  (** one call of RenderResult::renderPixel *)
  Record pixel := Pixel { px_x : Z; px_y : Z; px_d : T; px_i : Z }.

  (** inner loop of drawTrianglePart, DepthCamera.cpp:460-466: n pixels from x on *)
  Fixpoint row_px (n : nat) (x y : Z) (d d_delta : T) (i : Z) : list pixel :=
    match n with O => [] | S n' => Pixel x y (fdiv n1 d) i :: row_px n' (x + 1) y (fadd d d_delta) d_delta i end.
  (** body of the outer loop, DepthCamera.cpp:442-466 *)
  Definition row (width y : Z) (x_start x_end d_start d_end : T) (i : Z) : outcome (list pixel) :=
    let d_delta := fdiv (fsub d_end d_start) (fsub x_end x_start) in
    let* st := (if x_start <? n0 then Ret (fadd d_start (fmul d_delta (- x_start)), 0%Z)
                else let* z := or_ub (toint x_start) in Ret (d_start, z)) in
    let '(d, x_start2) := st in
    let* xe := or_ub (toint x_end) in
    let x_end2 := Z.min (width - 1) xe in
    Ret (row_px (Z.to_nat (x_end2 - x_start2 + 1)) x_start2 y d d_delta i).
  (** outer loop, DepthCamera.cpp:440-472: n rows from y on *)
  Fixpoint rows (n : nat) (width y : Z) (xs xsd xe xed ds dsd de ded : T) (i : Z) : outcome (list pixel) :=
    match n with
    | O => Ret []
    | S n' =>
        let* here := row width y xs xe ds de i in
        let* rest := rows n' width (y + 1) (fadd xs xsd) xsd (fadd xe xed) xed (fadd ds dsd) dsd (fadd de ded) ded i in
        Ret (here ++ rest)
    end.
  (** drawTrianglePart, DepthCamera.cpp:416-473: the calls of renderPixel, in order. The pixels of a triangle are collected
      and handed to renderPixel afterwards (draw_pixels); the code reads nothing that renderPixel could change in between *)
  Definition drawTrianglePart (width height y_start y_end : Z) (xs xsd xe xed ds dsd de ded : T) (i : Z) : outcome (list pixel) :=
    if Z.ltb y_start 0 then
      let* neg := ichk (- y_start) in
      let k := fofZ neg in
      let y_end := Z.min (height - 1) y_end in
      rows (Z.to_nat (y_end + 1)) width 0 (fadd xs (fmul xsd k)) xsd (fadd xe (fmul xed k)) xed (fadd ds (fmul dsd k)) dsd (fadd de (fmul ded k)) ded i
    else
      let y_end := Z.min (height - 1) y_end in
      rows (Z.to_nat (y_end - y_start + 1)) width y_start xs xsd xe xed ds dsd de ded i.

  (** sort, DepthCamera.cpp:477-491, by the coordinate f *)
  Definition sort3 (f : vec3 T -> T) (a b c : vec3 T) : vec3 T * vec3 T * vec3 T :=
    let '(p_min, p_max) := if f a >? f c then (c, a) else (a, c) in
    let '(p_min, p_mid) := if f p_min >? f b then (b, p_min) else (p_min, b) in
    let '(p_mid, p_max) := if f p_mid >? f p_max then (p_max, p_mid) else (p_mid, p_max) in
    (p_min, p_mid, p_max).

  (** signed area test of the culling, DepthCamera.cpp:346 *)
  Definition front2d (p1 p2 p3 : vec3 T) : bool :=
    fsub (fmul (fsub (vx p2) (vx p1)) (fsub (vy p3) (vy p1))) (fmul (fsub (vx p3) (vx p1)) (fsub (vy p2) (vy p1))) <? n0.
  (** p_prime, DepthCamera.cpp:375 *)
  Definition prime (p_min p_max : vec3 T) (mid_max min_mid min_max : Z) : vec3 T :=
    let a := fofZ mid_max in let b := fofZ min_mid in let c := fofZ min_max in
    let f (g : vec3 T -> T) := fdiv (fadd (fmul (g p_min) a) (fmul (g p_max) b)) c in
    V3 (f vx) (f vy) (f vz).
  (** drawTriangle2D, DepthCamera.cpp:337-412 *)
  Definition drawTriangle2D (cull : bool) (width height : Z) (p1 p2 p3 : vec3 T) (i : Z) : outcome (list pixel) :=
    if negb cull || front2d p1 p2 p3 then
      let* y1 := or_ub (toint (vy p1)) in
      let* y2 := or_ub (toint (vy p2)) in
      let* y3 := or_ub (toint (vy p3)) in
      let* x1 := or_ub (toint (vx p1)) in
      let* x2 := or_ub (toint (vx p2)) in
      let* x3 := or_ub (toint (vx p3)) in
      let min_y := Z.min y1 (Z.min y2 y3) in
      let max_y := Z.max y1 (Z.max y2 y3) in
      let min_x := Z.min x1 (Z.min x2 x3) in
      let max_x := Z.max x1 (Z.max x2 x3) in
      if (Z.ltb min_x width && Z.ltb 0 max_x && Z.ltb min_y height && Z.ltb 0 max_y)%bool then
        if Z.eqb min_y max_y then
          let '(p_min, p_mid, p_max) := sort3 vx p1 p2 p3 in
          let* ys := or_ub (toint (vy p_min)) in
          let* ye := or_ub (toint (vy p_mid)) in
          drawTrianglePart width height ys ye (vx p_min) n0 (vx p_max) n0 (vz p_min) n0 (vz p_max) n0 i
        else
          let '(p_min, p_mid, p_max) := sort3 vy p1 p2 p3 in
          let* a := or_ub (toint (vy p_min)) in
          let* b := or_ub (toint (vy p_mid)) in
          let* c := or_ub (toint (vy p_max)) in
          let* min_mid := ichk (b - a) in
          let* mid_max := ichk (c - b) in
          let* min_max := ichk (c - a) in
          let p_prime := prime p_min p_max mid_max min_mid min_max in
          let '(p_a, p_b) := if vx p_prime >? vx p_mid then (p_mid, p_prime) else (p_prime, p_mid) in
          let m := fofZ min_mid in
          let* part1 := drawTrianglePart width height a b
                          (vx p_min) (fdiv (fsub (vx p_a) (vx p_min)) m) (vx p_min) (fdiv (fsub (vx p_b) (vx p_min)) m)
                          (vz p_min) (fdiv (fsub (vz p_a) (vz p_min)) m) (vz p_min) (fdiv (fsub (vz p_b) (vz p_min)) m) i in
          let m := fofZ mid_max in
          let* part2 := drawTrianglePart width height b c
                          (vx p_a) (fdiv (fsub (vx p_max) (vx p_a)) m) (vx p_b) (fdiv (fsub (vx p_max) (vx p_b)) m)
                          (vz p_a) (fdiv (fsub (vz p_max) (vz p_a)) m) (vz p_b) (fdiv (fsub (vz p_max) (vz p_b)) m) i in
          Ret (part1 ++ part2)
      else Ret []
    else Ret [].

  (** near_clip_z_, DepthCamera.h:260 *)
  Definition near_clip : T := nlit (-1) 10.
  (** image coordinates and inverse depth of a point, DepthCamera.cpp:323-330 and 290-301 *)
  Definition project_vert (c : cam) (p : vec3 T) : vec3 T :=
    let q := project3Dto2D c p in V3 (nf32 (v2x q)) (nf32 (v2y q)) (nf32 (n1 / (- vz p))).
  (** drawTriangle, DepthCamera.cpp:315-333 *)
  Definition drawTriangle (c : cam) (cull : bool) (width height : Z) (t : vec3 T * vec3 T * vec3 T) (i : Z) : outcome (list pixel) :=
    let '(p1, p2, p3) := t in
    drawTriangle2D cull width height (project_vert c p1) (project_vert c p2) (project_vert c p3) i.

  (** point of the edge from v to w in the near plane, DepthCamera.cpp:233-246 and 271-284 *)
  Definition clip_edge (v w : vec3 T) : vec3 T :=
    let d := vsub w v in
    let t := nf32 ((near_clip - vz v) / vz d) in
    V3 (vx v + vx d * t) (vy v + vy d * t) near_clip.
  (** the triangles drawn for one triangle, DepthCamera.cpp:184-301, from the number of vertices in view *)
  Definition clip_tri (p1 p2 p3 : vec3 T) : list (vec3 T * vec3 T * vec3 T) :=
    let in1 := vz p1 <? near_clip in
    let in2 := vz p2 <? near_clip in
    let in3 := vz p3 <? near_clip in
    let one v0 v1 v2 := [(v0, clip_edge v0 v1, clip_edge v0 v2)] in
    let two v0 v1 v2 := let new2 := clip_edge v0 v2 in let new3 := clip_edge v1 v2 in [(v0, v1, new2); (new2, v1, new3)] in
    match in1, in2, in3 with
    | true, true, true => [(p1, p2, p3)]
    | true, false, false => one p1 p2 p3
    | false, true, false => one p2 p3 p1
    | false, false, true => one p3 p1 p2
    | false, true, true => two p2 p3 p1
    | true, false, true => two p3 p1 p2
    | true, true, false => two p1 p2 p3
    | false, false, false => []
    end.

  Fixpoint draw_all (c : cam) (cull : bool) (width height : Z) (ts : list (vec3 T * vec3 T * vec3 T)) (i : Z) : outcome (list pixel) :=
    match ts with
    | [] => Ret []
    | t :: r => let* a := drawTriangle c cull width height t i in let* b := draw_all c cull width height r i in Ret (a ++ b)
    end.

  (** an arbitrary subclass of RenderResult (DepthCamera.h:82-105): its state, its renderPixel and its stop_ flag *)
  Section Result.
    Context {S : Type} (render_pixel : S -> pixel -> outcome S) (stopped : S -> bool).
    Fixpoint draw_pixels (s : S) (ps : list pixel) : outcome S :=
      match ps with [] => Ret s | p :: r => let* s' := render_pixel s p in draw_pixels s' r end.
    (** the loop over the triangles, DepthCamera.cpp:175-310; pts are the transformed points *)
    Fixpoint render_loop (c : cam) (cull : bool) (width height : Z) (pts : list (vec3 T)) (ts : list triI) (i : Z) (s : S) : outcome S :=
      match ts with
      | [] => Ret s
      | t :: rest =>
          let* p1 := or_ub (point_at pts (ti1 t)) in
          let* p2 := or_ub (point_at pts (ti2 t)) in
          let* p3 := or_ub (point_at pts (ti3 t)) in
          let* ps := draw_all c cull width height (clip_tri p1 p2 p3) (s32 i) in
          let* s' := draw_pixels s ps in
          if stopped s' then Ret s' else render_loop c cull width height pts rest (i + 1) s'
      end.
    (** render, DepthCamera.cpp:147-311 *)
    Definition cam_render (c : cam) (m : mesh T) (pose : trans3 T) (cull : bool) (width height : Z) (s : S) : outcome S :=
      if fst (getMaxRadius m) <? vz (MathTypes.tt pose) then Ret s
      else
        let pts := map (tapply pose) (m_points m) in
        if existsb (fun p => vz p <? near_clip) pts then render_loop c cull width height pts (m_tris m) 0 s
        else Ret s.
  End Result.

  (** class DefaultRenderResult, DepthCamera.h:107-150: image rows (cv::Mat of CV_32FC1), pointer, pointer map, triangle map
      (both indexed by column first) *)
  Record drr := DRR { d_img : list (list T); d_ptr : option nat; d_pmap : list (list (option nat)); d_tmap : list (list Z) }.
  (** element access out of range is undefined behaviour *)
  Definition get2 {A : Type} (m : list (list A)) (i j : Z) : outcome A :=
    if (Z.leb 0 i && Z.leb 0 j)%bool then
      let* r := or_ub (nth_error m (Z.to_nat i)) in or_ub (nth_error r (Z.to_nat j))
    else UB.
  Fixpoint upd {A : Type} (l : list A) (i : nat) (a : A) : list A :=
    match l, i with [], _ => [] | _ :: r, O => a :: r | b :: r, S i' => b :: upd r i' a end.
  Definition set2 {A : Type} (m : list (list A)) (i j : Z) (a : A) : outcome (list (list A)) :=
    let* _ := get2 m i j in
    Ret (upd m (Z.to_nat i) (upd (nth (Z.to_nat i) m []) (Z.to_nat j) a)).
  (** renderPixel, DepthCamera.cpp:17-34 *)
  Definition renderPixel (s : drr) (p : pixel) : outcome drr :=
    let* old := get2 (d_img s) (px_y p) (px_x p) in
    if (old =? n0) || (old >? px_d p) then
      let* img := set2 (d_img s) (px_y p) (px_x p) (px_d p) in
      let* pm := match d_ptr s with Some _ => set2 (d_pmap s) (px_x p) (px_y p) (d_ptr s) | None => Ret (d_pmap s) end in
      let* tm := match d_tmap s with [] => Ret [] | _ :: _ => set2 (d_tmap s) (px_x p) (px_y p) (px_i p) end in
      Ret (DRR img (d_ptr s) pm tm)
    else Ret s.
  (** std::vector::resize(n, a) *)
  Definition vresize {A : Type} (l : list A) (n : nat) (a : A) : list A := firstn n l ++ repeat a (n - length l).
  (** reservation of a map, DepthCamera.h:120-127 and 131-135; [0] of an empty vector is not evaluated *)
  Definition reserve {A : Type} (m : list (list A)) (cols rws : nat) (a : A) : list (list A) :=
    match m with
    | [] => vresize m cols (repeat a rws)
    | c0 :: _ => if (negb (Nat.eqb (length m) cols) || negb (Nat.eqb (length c0) rws))%bool then vresize m cols (repeat a rws) else m
    end.
  (** DefaultRenderResult(image, pointer, pointer_map, triangle_map), DepthCamera.h:113-136 *)
  Definition drr_make (img : list (list T)) (cols : nat) (ptr : option nat) (pm : list (list (option nat))) (tm : list (list Z)) : drr :=
    let rws := length img in
    DRR img ptr (match ptr with Some _ => reserve pm cols rws None | None => pm end) (reserve tm cols rws (-1)%Z).
  (** rasterize, DepthCamera.cpp:126-143, on the shape's mesh; back face culling is on (DepthCamera.h:52). cols is image.cols *)
  Definition rasterize (c : cam) (m : mesh T) (pose : trans3 T) (img : list (list T)) (cols : nat) (pm : list (list (option nat))) (ptr : option nat) (tm : list (list Z)) : outcome drr :=
    cam_render renderPixel (fun _ => false) c m pose true (Z.of_nat cols) (Z.of_nat (length img)) (drr_make img cols ptr pm tm).
  (** rasterize with camera and object pose, DepthCamera.cpp:114-124 *)
  Definition rasterize2 (c : cam) (m : mesh T) (cam_pose obj_pose : trans3 T) (img : list (list T)) (cols : nat) (pm : list (list (option nat))) (ptr : option nat) (tm : list (list Z)) : outcome drr :=
    rasterize c m (tmul (tinverse cam_pose) obj_pose) img cols pm ptr tm.
End Depth.
Arguments cam : clear implicits.
Arguments pixel : clear implicits.
Arguments drr : clear implicits.
