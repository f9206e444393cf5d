(** * src/sensors/LaserRangeFinder.cpp, include/geolib/sensors/LaserRangeFinder.h *)
From Coq Require Import ZArith NArith List Bool.
From Verif Require Import Num MathTypes Outcome Mesh.
Import ListNotations.

(** static_cast<int> of an unsigned int (two's complement) *)
Definition s32 (n : N) : Z := if N.ltb n 2147483648 then Z.of_N n else (Z.of_N n - 4294967296)%Z.
(** the values of a loop counter: for (uint i = lo; i < hi; ++i); hi is an unsigned int, so ++i does not wrap *)
Definition urange (lo hi : N) : list nat := seq (N.to_nat lo) (N.to_nat hi - N.to_nat lo).
(** v[i] = x (undefined behaviour when i is out of range) *)
Fixpoint set_nth {A} (l : list A) (i : nat) (x : A) : option (list A) :=
  match l, i with
  | [], _ => None
  | _ :: r, O => Some (x :: r)
  | a :: r, S k => option_map (cons a) (set_nth r k x)
  end.
(** std::vector::resize(n, x) *)
Definition resize {A} (n : nat) (x : A) (l : list A) : list A := firstn n l ++ repeat x (n - length l).

Section Laser.
  Context {T : Type} {NT : Num T} {TR : Trig T}.
  Local Open Scope num_scope.

  (** class LaserRangeFinder, LaserRangeFinder.h:14-159 (fields 127-140) *)
  Record lrf := LRF {
    l_amin : T; l_amax : T;          (* a_min_, a_max_ *)
    l_rmin : T; l_rmax : T;          (* range_min_, range_max_ *)
    l_num : N;                       (* num_beams_ *)
    l_angles : list T;               (* angles_ *)
    l_rays : list (vec3 T);          (* ray_dirs_ *)
    l_incr : T;                      (* angle_incr_ *)
    l_half : N                       (* i_half_circle_ *)
  }.
  (** LaserRangeFinder(), LaserRangeFinder.cpp:15-17 *)
  Definition lrf_new : lrf := LRF n0 n0 n0 n0 0 [] [] n0 0.

  (** polarTo2D, LaserRangeFinder.cpp:402-405 *)
  Definition polarTo2D (angle range : T) : vec3 T := vscale (V3 (ncos angle) (nsin angle) n0) range.
  (** polarTo3D, LaserRangeFinder.cpp:407-410 *)
  Definition polarTo3D (pose : trans3 T) (angle range : T) : vec3 T := m3mulv (tR pose) (polarTo2D angle range).

  (** static_cast<uint> of a double: undefined behaviour outside the range of unsigned int *)
  Definition touint (x : T) : option N :=
    match ntrunc x with
    | Some z => if (Z.leb 0 z && Z.leb z 4294967295)%bool then Some (Z.to_N z) else None
    | None => None
    end.
  (** the loop of calculateRays, LaserRangeFinder.cpp:333-340: the angle is accumulated *)
  Fixpoint beam_angles (n : nat) (a incr : T) : list T :=
    match n with O => [] | S k => a :: beam_angles k (a + incr) incr end.
  (** calculateRays, LaserRangeFinder.cpp:324-343; std::acos(-1.0) is pi *)
  Definition calculateRays (l : lrf) : outcome lrf :=
    let incr := (l_amax l - l_amin l) / nofZ (Z.of_N (N.max (u32 (l_num l + 4294967295)) 1)) in
    let angles := beam_angles (N.to_nat (l_num l)) (l_amin l) incr in
    let* half := or_ub (touint (npi / incr)) in
    Ret (LRF (l_amin l) (l_amax l) (l_rmin l) (l_rmax l) (l_num l) angles (map (fun a => polarTo2D a n1) angles) incr half).
  (** setAngleLimits, LaserRangeFinder.cpp:305-313 *)
  Definition setAngleLimits (l : lrf) (mn mx : T) : outcome lrf :=
    let l' := LRF mn mx (l_rmin l) (l_rmax l) (l_num l) (l_angles l) (l_rays l) (l_incr l) (l_half l) in
    if N.ltb 0 (l_num l') && (l_amax l' - l_amin l' >? n0) then calculateRays l' else Ret l'.
  (** setNumBeams, LaserRangeFinder.cpp:315-322 *)
  Definition setNumBeams (l : lrf) (n : N) : outcome lrf :=
    let l' := LRF (l_amin l) (l_amax l) (l_rmin l) (l_rmax l) n (l_angles l) (l_rays l) (l_incr l) (l_half l) in
    if N.ltb 0 n && (l_amax l' - l_amin l' >? n0) then calculateRays l' else Ret l'.
  (** setRangeLimits, LaserRangeFinder.h:72-76 *)
  Definition setRangeLimits (l : lrf) (mn mx : T) : lrf :=
    LRF (l_amin l) (l_amax l) mn mx (l_num l) (l_angles l) (l_rays l) (l_incr l) (l_half l).
  (** configuration calls, for histories *)
  Inductive lrf_op := LAngles (mn mx : T) | LBeams (n : N) | LRange (mn mx : T).
  Definition lrf_step (l : lrf) (o : lrf_op) : outcome lrf :=
    match o with LAngles mn mx => setAngleLimits l mn mx | LBeams n => setNumBeams l (u32 n) | LRange mn mx => Ret (setRangeLimits l mn mx) end.
  Fixpoint lrf_run (l : lrf) (ops : list lrf_op) : outcome lrf :=
    match ops with [] => Ret l | o :: r => let* l' := lrf_step l o in lrf_run l' r end.

  (** getAngleUpperIndexRaw, LaserRangeFinder.cpp:361-370; the cast and the addition are undefined behaviour outside int *)
  Definition angleRaw (l : lrf) (angle : T) : outcome Z :=
    let* z := or_ub (toint ((angle - l_amin l) / l_incr l)) in
    if Z.eqb z 2147483647 then UB else Ret (z + 1)%Z.
  Definition angleRawXY (l : lrf) (x y : T) : outcome Z := angleRaw l (natan2 y x).
  (** getAngleUpperIndex, LaserRangeFinder.cpp:350-359 *)
  Definition getAngleUpperIndex (l : lrf) (angle : T) : outcome N :=
    let* z := angleRaw l angle in Ret (N.min (l_num l) (Z.to_N (Z.max 0 z))).
  Definition getAngleUpperIndexXY (l : lrf) (x y : T) : outcome N := getAngleUpperIndex l (natan2 y x).

  (** class RenderResult, LaserRangeFinder.h:37-55; the lrf_ pointer is an argument of the functions below *)
  Record rr := RR { rr_min : N; rr_max : N; rr_ranges : list T }.
  (** RenderResult(ranges), LaserRangeFinder.h:41-43 *)
  Definition rr_make (ranges : list T) : rr := RR (u32 (N.of_nat (length ranges) + 4294967295)) 0 ranges.

  (** renderPoint, LaserRangeFinder.cpp:142-148; d is a float *)
  Definition renderPoint (ranges : list T) (i : nat) (d : T) : outcome (list T) :=
    let* r := or_ub (nth_error ranges i) in
    if (r =? n0) || (d <? r) then or_ub (set_nth ranges i d) else Ret ranges.
  (** one of the two drawing loops, LaserRangeFinder.cpp:121-137 *)
  Fixpoint render_part (l : lrf) (p1 s : vec2 T) (is_ : list nat) (ranges : list T) : outcome (list T) :=
    match is_ with
    | [] => Ret ranges
    | i :: rest =>
        let* ray := or_ub (nth_error (l_rays l) i) in
        let r := vproj2 ray in
        let d := v2cross p1 s / v2cross r s in
        let* ranges' := if d >? n0 then renderPoint ranges i (nf32 d) else Ret ranges in
        render_part l p1 s rest ranges'
    end.
  (** squared distance of the origin to the segment, LaserRangeFinder.cpp:42-50 *)
  Definition line_dist2 (p1 p2 diff : vec2 T) (len2 : T) : T :=
    let t := v2dot p1 diff / (- len2) in
    if t <? n0 then v2length2 p1
    else if t >? n1 then v2length2 p2
    else v2length2 (v2add p1 (v2scale diff t)).
  (** RenderResult::renderLine, LaserRangeFinder.cpp:29-138 *)
  Definition renderLine (l : lrf) (p1 p2 : vec2 T) (res : rr) : outcome rr :=
    let diff := v2sub p2 p1 in
    let len2 := v2length2 diff in
    if ((v2x p1 =? n0) && (v2y p1 =? n0)) || ((v2x p2 =? n0) && (v2y p2 =? n0)) || (len2 =? n0) then Ret res
    else if (l_rmax l >? n0) && (line_dist2 p1 p2 diff len2 >? l_rmax l * l_rmax l) then Ret res
    else
      let* i_p1 := angleRawXY l (v2x p1) (v2y p1) in
      let* i_p2 := angleRawXY l (v2x p2) (v2y p2) in
      let i_min := Z.min i_p1 i_p2 in
      let i_max := Z.max i_p1 i_p2 in
      if negb (Z.leb (i_max - i_min) 2147483647) then UB   (* int overflow *)
      else if Z.ltb (i_max - i_min) (s32 (l_half l)) then
        if Z.ltb i_p2 i_p1 then Ret res
        else if Z.leb (s32 (l_num l)) i_min then Ret res
        else
          let i_min1 := Z.to_N (Z.max 0 i_min) in
          let i_max1 := N.min (l_num l) (Z.to_N (Z.max 0 i_max)) in
          let* ranges := render_part l p1 diff (urange i_min1 i_max1) (rr_ranges res) in
          Ret (RR (N.min (rr_min res) i_min1) (N.max (rr_max res) i_max1) ranges)
      else
        if Z.ltb i_p1 i_p2 then Ret res
        else
          let i_min1 := Z.to_N (Z.max 0 i_max) in
          let i_max1 := l_num l in
          let i_max2 := N.min (l_num l) (Z.to_N (Z.max 0 i_min)) in
          let* ranges := render_part l p1 diff (urange i_min1 i_max1) (rr_ranges res) in
          let* ranges := render_part l p1 diff (urange 0 i_max2) ranges in
          Ret (RR 0 (l_num l) ranges).
  (** LaserRangeFinder::renderLine, LaserRangeFinder.cpp:292-297 *)
  Definition lrf_renderLine (l : lrf) (p1 p2 : vec2 T) (ranges : list T) : outcome (list T) :=
    let* res := renderLine l p1 p2 (rr_make ranges) in Ret (rr_ranges res).

  (** point of an edge in the laser plane, LaserRangeFinder.cpp:226-262: (p * zq + q * zp) / (zp + zq) *)
  Definition cut (p q : vec2 T) (zp zq : T) : vec2 T := v2divs (v2add (v2scale p zq) (v2scale q zp)) (zp + zq).
  (** slicing one triangle, LaserRangeFinder.cpp:198-264; None when all corners are on one side. The q1, q2 that the
      code leaves uninitialised before the second if are [un] (never read: exactly one pair of flags agrees) *)
  Definition slice (z1 z2 z3 : T) (p1 p2 p3 : vec2 T) : option (vec2 T * vec2 T) :=
    let u1 := z1 <? n0 in
    let u2 := z2 <? n0 in
    let u3 := z3 <? n0 in
    if negb (Bool.eqb u1 u2) || negb (Bool.eqb u2 u3) then
      let a1 := nabs z1 in
      let a2 := nabs z2 in
      let a3 := nabs z3 in
      let un := (V2 n0 n0, V2 n0 n0) in
      let q := if Bool.eqb u2 u3 then
                 if u2 then (cut p1 p3 a1 a3, cut p1 p2 a1 a2) else (cut p1 p2 a1 a2, cut p1 p3 a1 a3)
               else if Bool.eqb u1 u3 then
                 if u1 then (cut p2 p1 a2 a1, cut p2 p3 a2 a3) else (cut p2 p3 a2 a3, cut p2 p1 a2 a1)
               else un in
      let q := if Bool.eqb u1 u2 then
                 if u1 then (cut p3 p2 a3 a2, cut p3 p1 a3 a1) else (cut p3 p1 a3 a1, cut p3 p2 a3 a2)
               else q in
      Some q
    else None.
  (** transformed height and plane coordinates of a vertex, LaserRangeFinder.cpp:181-188 and 213-215 *)
  Definition vert_z (pose : trans3 T) (v : vec3 T) : T := vdot (m3row (tR pose) 2) v + vz (MathTypes.tt pose).
  Definition vert_xy (pose : trans3 T) (v : vec3 T) : vec2 T :=
    V2 (vdot (m3row (tR pose) 0) v + vx (MathTypes.tt pose)) (vdot (m3row (tR pose) 1) v + vy (MathTypes.tt pose)).
  Fixpoint render_tris (l : lrf) (pts : list (vec3 T)) (pose : trans3 T) (ts : list triI) (res : rr) : outcome rr :=
    match ts with
    | [] => Ret res
    | t :: rest =>
        let* a := or_ub (point_at pts (ti1 t)) in
        let* b := or_ub (point_at pts (ti2 t)) in
        let* c := or_ub (point_at pts (ti3 t)) in
        let* res' := match slice (vert_z pose a) (vert_z pose b) (vert_z pose c) (vert_xy pose a) (vert_xy pose b) (vert_xy pose c) with
                     | Some (q1, q2) => renderLine l q1 q2 res
                     | None => Ret res
                     end in
        render_tris l pts pose rest res'
    end.
  (** render(options, result), LaserRangeFinder.cpp:152-271 *)
  Definition lrf_render (l : lrf) (m : mesh T) (pose : trans3 T) (ranges : list T) : outcome rr :=
    let size := length (l_rays l) in
    let ranges := if Nat.eqb (length ranges) size then ranges else resize size n0 ranges in
    let res := RR 0 (u32 (N.of_nat size)) ranges in
    let max_radius := fst (getMaxRadius m) in
    let o := MathTypes.tt pose in
    let dist_sq := vlength2 o in
    if (max_radius >? n0) && ((nabs (vz o) >? max_radius) || ((dist_sq >? max_radius * max_radius) && (nsqrt dist_sq - max_radius >? l_rmax l)))
    then Ret res
    else render_tris l (m_points m) pose (m_tris m) res.
  (** render(shape, cam_pose, obj_pose, ranges), LaserRangeFinder.cpp:275-288, on the shape's mesh *)
  Definition lrf_render_shape (l : lrf) (m : mesh T) (cam obj : trans3 T) (ranges : list T) : outcome rr :=
    lrf_render l m (tmul (tinverse cam) obj) ranges.

  (** rangeToPoint, LaserRangeFinder.cpp:378-381 *)
  Definition rangeToPoint (l : lrf) (range : T) (i : N) : outcome (vec3 T) :=
    let* r := or_ub (nth_error (l_rays l) (N.to_nat i)) in Ret (vscale r range).
  (** getRayDirection, LaserRangeFinder.cpp:383-386 *)
  Definition getRayDirection (l : lrf) (i : N) : outcome (vec3 T) := or_ub (nth_error (l_rays l) (N.to_nat i)).
  (** rangesToPoints, LaserRangeFinder.cpp:388-400; None when the sizes differ (points unchanged) *)
  Definition rangesToPoints (l : lrf) (ranges : list T) : option (list (vec3 T)) :=
    if Nat.eqb (length ranges) (length (l_rays l)) then Some (map (fun '(r, d) => vscale r d) (combine (l_rays l) ranges)) else None.
End Laser.
Arguments lrf : clear implicits.
Arguments lrf_op : clear implicits.
Arguments rr : clear implicits.
