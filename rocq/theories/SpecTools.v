(** * Specification of the image conversion tools: what a grey image and a documented command line mean *)
From Coq Require Import ZArith NArith List String Reals.
From Verif Require Import MathTypes SpecHeight Tools.
Import ListNotations.
Local Open Scope R_scope.

(** block height of a pixel value: white (255) is 0, black (0) is the full height *)
Definition s_level (bh : R) (v : N) : R := bh * (255 - IZR (Z.of_N v)) / 255.
(** the grid of an image: the first index runs along the columns, the second one up the rows *)
Definition s_image_grid (bh : R) (im : image) : list (list R) :=
  map (fun x => map (fun j => s_level bh (im_at im (im_rows im - 1 - j) x)) (seq 0 (im_rows im))) (seq 0 (im_cols im)).
(** a loaded 8-bit image of moderate size *)
Definition s_image (im : image) : Prop :=
  (0 < im_rows im)%nat /\ (0 < im_cols im)%nat /\
  (12 * (N.of_nat (im_cols im) + 1) * (N.of_nat (im_rows im) + 1) <= 2 ^ 32)%N /\ forall y x, (im_at im y x < 256)%N.
(** resolution and block height for which the vertex merging of the library is exact, and coordinates fit *)
Definition s_scale (im : image) (res bh : R) : Prop :=
  1 / 1000 <= res /\ 51 / 100 <= bh /\ 1000 * (res * INR (im_cols im)) < 2147483648 /\ 1000 * (res * INR (im_rows im)) < 2147483648 /\
  1000 * bh < 2147483648.
(** the documented options "RESOLUTION [BLOCK_HEIGHT] [ORIGIN_X ORIGIN_Y]" *)
Inductive s_opts (atof : string -> R) : list string -> R -> R -> R -> R -> Prop :=
| so_res r : s_opts atof [r] (atof r) 1 0 0
| so_height r b : s_opts atof [r; b] (atof r) (atof b) 0 0
| so_origin r b x y : s_opts atof [r; b; x; y] (atof r) (atof b) (atof x) (atof y).
Definition s_shift (ox oy : R) (p : vec3 R) : vec3 R := V3 (vx p + ox) (vy p + oy) (vz p).
Definition s_shift3 (ox oy : R) (t : vec3 R * vec3 R * vec3 R) : vec3 R * vec3 R * vec3 R :=
  let '(a, b, c) := t in (s_shift ox oy a, s_shift ox oy b, s_shift ox oy c).
(** the triangles l of the surface of grid g (mx by my cells): tops of the blocks, walls across x and across y *)
Definition s_surface (g : list (list R)) (mx my : nat) (res : R) (l : list (vec3 R * vec3 R * vec3 R)) : Prop :=
  exists rs Wx Wy, s_tops g mx my 0 rs /\
    s_walls (fun i k => (s_hz g (Z.of_nat i) (Z.of_nat k), s_hz g (Z.of_nat i - 1) (Z.of_nat k))) mx my Wx /\
    s_walls (fun i k => (s_hz g (Z.of_nat k) (Z.of_nat i), s_hz g (Z.of_nat k) (Z.of_nat i - 1))) my mx Wy /\
    l = flat_map (fun '(x0, y0, x1, y1, h) => s_top res x0 y0 x1 y1 h) rs ++
        flat_map (fun '(i, s, e, h, h2) => s_wall_x res i s e h h2) Wx ++ flat_map (fun '(i, s, e, h, h2) => s_wall_y res i s e h h2) Wy.
