(** * Model of the viewers: src/visualization.cpp and tools/show.cpp

    The window is not modelled: a run yields the images handed to cv::imshow, in order, and reads the results of cv::waitKey
    from a sequence. An image is the list of its rows (as in Depth.v). *)
From Coq Require Import ZArith NArith List Bool String.
From Verif Require Import Num MathTypes Outcome Mesh Depth Import.
Import ListNotations.

Section Viewer.
  Context {T : Type} {NT : Num T} {TT : Trig T}.
  Local Open Scope num_scope.

  Definition frame := list (list T).
  (** cv::Mat(rows, cols, CV_32FC1, 0.0), visualization.cpp:31 and show.cpp:65 *)
  Definition black (w h : Z) : frame := repeat (repeat n0 (Z.to_nat w)) (Z.to_nat h).
  (** the camera of both viewers, visualization.cpp:17-24 and show.cpp:46-53: focal lengths and centre scaled with the canvas *)
  Definition viewer_cam (w h : Z) (cw ch : T) : cam T :=
    let f := nlit 5542559327880068 10000000000000 in
    Cam w h (f * cw / nofZ 640) (f * ch / nofZ 480) (nlit 3205 10 * cw / nofZ 640) (nlit 2405 10 * ch / nofZ 480) n0 n0.

  (** one frame of showKinect, visualization.cpp:26-36; image / 10 is the product with 1/10, rounded to single precision *)
  Definition kinect_frame (m : mesh T) (w h : Z) (cw ch angle : T) : outcome frame :=
    let r := fst (getMaxRadius m) in
    let dist := r / nofZ 2 in
    let* s := rasterize (viewer_cam w h cw ch) m (tmake n0 n0 dist (nlit (-157) 100) angle n0) (black w h) (Z.to_nat w) [] None [] in
    Ret (map (map (fun d => nf32 (d * nlit 1 10))) (d_img s)).
  (** the loop, visualization.cpp:29-43; keys i is the result of waitKey in round i *)
  Fixpoint kinect_loop (fuel : nat) (m : mesh T) (w h : Z) (cw ch : T) (keys : nat -> Z) (i : nat) : outcome (list frame) :=
    match fuel with
    | O => Fuel
    | S f =>
        let angle := nofZ (Z.of_nat i) * nlit 5 100 in
        if angle <? nlit 6283 1000 then
          let* fr := kinect_frame m w h cw ch angle in
          if Z.eqb (keys i) (-1) then let* rest := kinect_loop f m w h cw ch keys (S i) in Ret (fr :: rest) else Ret [fr]
        else Ret []
    end.
  (** showKinect, visualization.cpp:15-44, on a shape's mesh. A canvas size whose conversion is not a positive int is not an
      image size; OpenCV throws for it (simplified: the conversion of a value outside of the range of unsigned int is
      undefined) *)
  Definition showKinect (fuel : nat) (m : mesh T) (cw ch : T) (keys : nat -> Z) : outcome (list frame) :=
    let* w := or_ub (ntrunc cw) in
    let* h := or_ub (ntrunc ch) in
    if (Z.ltb w 0 || Z.ltb h 0 || Z.leb 4294967296 w || Z.leb 4294967296 h)%bool then UB
    else if (Z.eqb w 0 || Z.eqb h 0 || Z.leb 2147483648 w || Z.leb 2147483648 h)%bool then Exn
    else kinect_loop fuel m w h cw ch keys 0.

  (** one frame of show, show.cpp:55-80 *)
  Definition show_frame (m : mesh T) (angle : T) : outcome frame :=
    let r := fst (getMaxRadius m) in
    let dist := r * nofZ 3 in
    let* s := rasterize2 (viewer_cam 640 480 (nofZ 640) (nofZ 480)) m (tmake n0 n0 n0 (nlit 157 100) n0 (nlit (-157) 100)) (tmake dist n0 n0 n0 n0 angle)
                (black 640 480) 640 [] None [] in
    Ret (map (map (fun d => if n0 <? d then nf32 ((d - dist + r) / (nofZ 2 * r)) else d)) (d_img s)).
  (** static_cast<char>(key) == 'q', show.cpp:83-84 *)
  Definition is_q (key : Z) : bool := Z.eqb (key mod 256) 113.
  (** the loop, show.cpp:60-91 *)
  Fixpoint show_loop (fuel : nat) (m : mesh T) (keys : nat -> Z) (i : nat) (angle : T) : outcome (list frame) :=
    match fuel with
    | O => Fuel
    | S f =>
        let* fr := show_frame m angle in
        if is_q (keys i) then Ret [fr]
        else let* rest := show_loop f m keys (S i) (angle + nlit 7 100) in Ret (fr :: rest)
    end.
  (** main, show.cpp:20-94: exit code and the images shown. own is what serialization::fromFile yields for a file (Serial.v;
      its bytes are converted to numbers there), scene what assimp reads from it *)
  Definition show (own : string -> outcome (option (mesh T))) (scene : string -> option (aiscene T)) (fuel : nat) (argv : list string) (keys : nat -> Z) : outcome (Z * list frame) :=
    if negb (Nat.eqb (List.length argv) 2) then Ret (1%Z, [])
    else
      let filename := nth 1 argv EmptyString in
      let* sh := own filename in
      let* sh := match sh with Some m => Ret (Some m) | None => readMeshFile filename (scene filename) (V3 n1 n1 n1) end in
      match sh with
      | None => Ret (1%Z, [])
      | Some m => let* fs := show_loop fuel m keys 0 n0 in Ret (0%Z, fs)
      end.
End Viewer.
