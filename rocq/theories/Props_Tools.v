(** * Properties C83, C84: the image conversion tools *)
From Coq Require Import ZArith NArith List Bool Lia String Reals Lra.
From Verif Require Import Num MathTypes Outcome Mesh Box Spec P_Tac P_Math P_Mesh P_HeightMesh HeightMap SpecHeight Props_Mesh Props_Height Import Tools SpecTools.
Import ListNotations.
Local Open Scope R_scope.

(** ** the grid loop *)
Lemma put_length : forall (l : list R) i a, List.length (put l i a) = List.length l.
Proof. induction l as [|b r IH]; intros [|i] a; cbn [put List.length]; auto. Qed.
Lemma put_nth : forall (l : list R) i a j d, (i < List.length l)%nat -> nth j (put l i a) d = if Nat.eqb j i then a else nth j l d.
Proof.
  induction l as [|b r IH]; intros [|i] a [|j] d L; cbn [put nth List.length Nat.eqb] in *; try lia; auto. apply IH. lia.
Qed.
Lemma fill_column : forall (f : nat -> R) n k, (k <= n)%nat ->
  let col := fold_left (fun col y => put col (n - y - 1) (f y)) (seq 0 k) (repeat 0 n) in
  List.length col = n /\ forall j, (n - k <= j < n)%nat -> nth j col 0 = f (n - 1 - j)%nat.
Proof.
  intros f n k K. induction k as [|k IH].
  - cbn. split; [apply repeat_length|]. intros. lia.
  - rewrite seq_S, fold_left_app. cbn [fold_left Nat.add]. destruct IH as [L E]; [lia|].
    split; [rewrite put_length; auto|]. intros j J. rewrite put_nth by lia.
    destruct (Nat.eqb_spec j (n - k - 1)) as [->|NE]; [f_equal; lia|]. apply E. lia.
Qed.
Lemma image_grid_spec : forall bh im, image_grid bh im = s_image_grid bh im.
Proof.
  intros bh im. unfold image_grid, s_image_grid. apply map_ext. intros x.
  set (f := fun y => bh - IZR (Z.of_N (im_at im y x)) / 255 * bh).
  destruct (fill_column f (im_rows im) (im_rows im) (Nat.le_refl _)) as [L E].
  apply nth_ext with (d := 0) (d' := 0).
  - rewrite map_length, seq_length. exact L.
  - intros j J. assert (J' : (j < im_rows im)%nat) by (rewrite <- L; exact J).
    etransitivity; [apply E; lia|]. rewrite nth_indep with (d' := s_level bh (im_at im (im_rows im - 1 - 0) x)) by (rewrite map_length, seq_length; auto).
    rewrite (map_nth (fun j => s_level bh (im_at im (im_rows im - 1 - j) x))), seq_nth by auto.
    cbn [Nat.add]. unfold f, s_level. field.
Qed.
Lemma image_rect : forall bh im, s_rect (s_image_grid bh im) (im_rows im).
Proof. intros bh im row I. apply in_map_iff in I. destruct I as [x [<- _]]. rewrite map_length, seq_length. auto. Qed.
Lemma image_length : forall bh im, List.length (s_image_grid bh im) = im_cols im.
Proof. intros. unfold s_image_grid. rewrite map_length, seq_length. auto. Qed.
Lemma image_height : forall bh im x j, (x < im_cols im)%nat -> (j < im_rows im)%nat ->
  s_height (s_image_grid bh im) x j (s_level bh (im_at im (im_rows im - 1 - j) x)).
Proof.
  intros bh im x j X J. apply (height_cell _ (im_rows im)); [apply image_rect|]. rewrite image_length. split; [auto|]. split; [auto|].
  unfold cell_at, s_image_grid.
  rewrite nth_indep with (d' := map (fun j => s_level bh (im_at im (im_rows im - 1 - j) 0)) (seq 0 (im_rows im))) by (rewrite map_length, seq_length; auto).
  rewrite (map_nth (fun x => map (fun j => s_level bh (im_at im (im_rows im - 1 - j) x)) (seq 0 (im_rows im)))), seq_nth by auto. cbn [Nat.add].
  rewrite nth_indep with (d' := s_level bh (im_at im (im_rows im - 1 - 0) x)) by (rewrite map_length, seq_length; auto).
  rewrite (map_nth (fun j => s_level bh (im_at im (im_rows im - 1 - j) x))), seq_nth by auto. reflexivity.
Qed.
Lemma image_heights : forall bh im x j h, s_height (s_image_grid bh im) x j h -> exists y x', h = s_level bh (im_at im y x').
Proof.
  intros bh im x j h H. pose proof H as H2. apply (height_cell _ (im_rows im)) in H2; [|apply image_rect]. destruct H2 as [X [J _]]. rewrite image_length in X.
  pose proof (image_height bh im x j X J) as E. destruct H as [row [A B]], E as [row' [A' B']]. rewrite A in A'. injection A' as <-.
  rewrite B in B'. injection B' as ->. eauto.
Qed.
Lemma levels_coarse : forall bh (v w : Z), 51 / 100 <= bh ->
  bh * (255 - IZR v) / 255 = bh * (255 - IZR w) / 255 \/ 2 / 1000 <= Rabs (bh * (255 - IZR v) / 255 - bh * (255 - IZR w) / 255).
Proof.
  intros bh v w B. destruct (Z.eq_dec v w) as [->|N]; [left; auto|right].
  replace (_ - _) with (bh / 255 * IZR (w - v)) by (rewrite minus_IZR; field). rewrite Rabs_mult, (Rabs_right (bh / 255)) by lra.
  assert (1 <= Rabs (IZR (w - v))) by (rewrite <- abs_IZR; apply IZR_le; lia).
  apply Rle_trans with (bh / 255 * 1); [lra|]. apply Rmult_le_compat_l; lra.
Qed.
Lemma image_coarse : forall bh im, 51 / 100 <= bh -> s_coarse (s_image_grid bh im).
Proof.
  intros bh im B a b A C.
  assert (Z : forall h, (h = 0 \/ exists x y, s_height (s_image_grid bh im) x y h) -> exists v : Z, h = bh * (255 - IZR v) / 255).
  { intros h [->|[x [y H]]]; [exists 255%Z; field|]. apply image_heights in H. destruct H as [y' [x' ->]]. unfold s_level. eauto. }
  destruct (Z a A) as [v ->], (Z b C) as [w ->]. apply levels_coarse; auto.
Qed.

(** ** the conversion *)
Lemma shift_apply : forall ox oy p, tapply (tmake ox oy 0 0 0 0) p = s_shift ox oy p.
Proof.
  intros ox oy [x y z]. unfold tapply, tmake, m3rpy, m3mulv, vadd, s_shift. cbn [tR MathTypes.tt ncos nsin TrigR].
  rewrite cos_0, sin_0. unR. cbn. f_equal; ring.
Qed.
Lemma convert_mesh : forall fuel im res bh ox oy, s_image im -> s_scale im res bh -> (33 <= fuel)%nat ->
  exists hm l, from_grid fuel (image_grid bh im) res = Ret hm /\ s_surface (s_image_grid bh im) (im_cols im) (im_rows im) res l /\
    soup_of (getTransformed (s_mesh (hm_base hm)) (tmake ox oy 0 0 0 0)) = Some (map (s_shift3 ox oy) l).
Proof.
  intros fuel im res bh ox oy [R0 [C0 [SZ V]]] [RS [BH [F1 [F2 F3]]]] FU. rewrite image_grid_spec.
  destruct (C47_returns fuel (s_image_grid bh im) (im_rows im) res) as [hm H]; auto.
  - intros E. apply (f_equal (@List.length _)) in E. rewrite image_length in E. cbn in E. lia.
  - apply image_rect.
  - rewrite image_length. exact SZ.
  - rewrite image_length. pose proof (pos_INR (im_cols im)). pose proof (pos_INR (im_rows im)).
    assert (0 <= res * INR (im_cols im)) by (apply Rmult_le_pos; lra). assert (0 <= res * INR (im_rows im)) by (apply Rmult_le_pos; lra).
    split; [rewrite Rabs_right; lra|]. split; [rewrite Rabs_right; lra|]. intros x y h HH. apply image_heights in HH. destruct HH as [y' [x' ->]].
    unfold s_level. specialize (V y' x'). assert (B : 0 <= IZR (Z.of_N (im_at im y' x')) <= 255) by (split; apply IZR_le; lia).
    assert (0 <= bh * (255 - IZR (Z.of_N (im_at im y' x'))) / 255 <= bh).
    { split; [apply Rmult_le_pos; [apply Rmult_le_pos|]; lra|]. apply (Rmult_le_reg_r 255); [lra|].
      replace (_ / 255 * 255) with (bh * (255 - IZR (Z.of_N (im_at im y' x')))) by field. apply Rmult_le_compat_l; lra. }
    rewrite Rabs_right; lra.
  - destruct (C71_surface fuel (s_image_grid bh im) (im_rows im) res hm) as [rs [Wx [Wy [A [B [C D]]]]]]; auto.
    + apply image_rect.
    + rewrite image_length. exact SZ.
    + apply image_coarse. auto.
    + rewrite image_length in *. eexists hm, _. split; [exact H|]. split; [exists rs, Wx, Wy; auto|].
      destruct (C14_transformed _ _ (s_mesh (hm_base hm)) (tmake ox oy 0 0 0 0)) as [_ [_ E]]. rewrite E.
      unfold soup_of. rewrite D. cbn [option_map]. f_equal. apply map_ext. intros [[a b] c]. unfold s_shift3. rewrite !shift_apply. auto.
Qed.

(** ** C83: for every documented command line of height_image_to_file, every image and every scale in range, the program ends
    normally and writes the surface of the blocks of the image, moved to the origin *)
Theorem C83_file : forall atof imread can_write fuel prog inp out opts res bh ox oy im,
  s_opts atof opts res bh ox oy -> imread inp = Some im -> s_image im -> s_scale im res bh -> (33 <= fuel)%nat ->
  (3 <= String.length out)%nat -> can_write out = true ->
  exists m l n, height_image_to_file atof imread can_write fuel (prog :: inp :: out :: opts) = Ret (Run 0 (Some (out, m)) (Some (n, out))) /\
    s_surface (s_image_grid bh im) (im_cols im) (im_rows im) res l /\ soup_of m = Some (map (s_shift3 ox oy) l) /\
    n = N.of_nat (List.length (m_tris m)).
Proof.
  intros atof imread can_write fuel prog inp out opts res bh ox oy im O I IM SC FU L W.
  destruct (convert_mesh fuel im res bh ox oy IM SC FU) as [hm [l [H [S E]]]].
  assert (P : file_args atof (prog :: inp :: out :: opts) = Some (Req inp out res bh ox oy)) by (destruct O; reflexivity).
  eexists _, l, _. split; [|split; [exact S|split; [exact E|reflexivity]]].
  unfold height_image_to_file, convert. rewrite P. cbn [rq_in rq_out rq_res rq_bh rq_ox rq_oy]. rewrite I, H. cbn [obind].
  unfold file_write_to.
  assert (X : exists f, exp_format out "" = Ret f).
  { unfold exp_format, suffix. cbn [lower obind]. destruct (Nat.ltb_spec (String.length out) 3); [lia|]. destruct (Nat.ltb_spec (String.length out) 1); [lia|].
    cbn [obind]. repeat match goal with |- context [String.eqb ?a ?b] => destruct (String.eqb a b) end; eauto. }
  destruct X as [f ->]. cbn [obind]. rewrite W. reflexivity.
Qed.
(** in terms of pixels: every point over a pixel darker than white lies, at the level of the pixel, on the written surface *)
Lemma square_in : forall (res h : R) x0 y0 x1 y1 px py, INR x0 * res <= px <= INR x1 * res -> INR y0 * res <= py <= INR y1 * res ->
  exists a b c, In (a, b, c) (s_top res x0 y0 x1 y1 h) /\ in_triangle a b c (V3 px py h).
Proof.
  intros res h x0 y0 x1 y1 px py X Y. set (X0 := INR x0 * res) in *. set (X1 := INR x1 * res) in *. set (Y0 := INR y0 * res) in *. set (Y1 := INR y1 * res) in *.
  assert (U : exists u, 0 <= u <= 1 /\ px = X0 + u * (X1 - X0)).
  { destruct (Req_dec X1 X0) as [E|N]; [exists 0; split; [lra|]; lra|]. exists ((px - X0) / (X1 - X0)). split; [|field; lra].
    split; [apply Rmult_le_pos; [lra|]; left; apply Rinv_0_lt_compat; lra|]. apply (Rmult_le_reg_r (X1 - X0)); [lra|]. replace ((px - X0) / (X1 - X0) * (X1 - X0)) with (px - X0) by (field; lra). lra. }
  assert (V : exists v, 0 <= v <= 1 /\ py = Y0 + v * (Y1 - Y0)).
  { destruct (Req_dec Y1 Y0) as [E|N]; [exists 0; split; [lra|]; lra|]. exists ((py - Y0) / (Y1 - Y0)). split; [|field; lra].
    split; [apply Rmult_le_pos; [lra|]; left; apply Rinv_0_lt_compat; lra|]. apply (Rmult_le_reg_r (Y1 - Y0)); [lra|]. replace ((py - Y0) / (Y1 - Y0) * (Y1 - Y0)) with (py - Y0) by (field; lra). lra. }
  destruct U as [u [U ->]], V as [v [V ->]]. destruct (Rle_lt_dec (u + v) 1) as [L|L].
  - eexists _, _, _. split; [left; reflexivity|]. exists (1 - u - v), u, v. repeat split; try lra. cbn [vx vy vz]. fold X0 X1 Y0 Y1. f_equal; ring.
  - eexists _, _, _. split; [right; left; reflexivity|]. exists (1 - v), (u + v - 1), (1 - u). repeat split; try lra. cbn [vx vy vz]. fold X0 X1 Y0 Y1. f_equal; ring.
Qed.
Lemma surface_pixel : forall bh im res l x y px py, s_surface (s_image_grid bh im) (im_cols im) (im_rows im) res l -> 0 < res -> 0 < bh ->
  (x < im_cols im)%nat -> (y < im_rows im)%nat -> (im_at im y x < 255)%N ->
  INR x * res <= px <= (INR x + 1) * res -> INR (im_rows im - 1 - y) * res <= py <= (INR (im_rows im - 1 - y) + 1) * res ->
  exists a b c, In (a, b, c) l /\ in_triangle a b c (V3 px py (s_level bh (im_at im y x))).
Proof.
  intros bh im res l x y px py [rs [Wx [Wy [[T1 T2] [_ [_ ->]]]]]] RS BH X Y V PX PY.
  set (j := (im_rows im - 1 - y)%nat) in *. assert (J : (j < im_rows im)%nat) by (unfold j; lia).
  assert (EY : (im_rows im - 1 - j)%nat = y) by (unfold j; lia).
  pose proof (image_height bh im x j X J) as H. rewrite EY in H. set (h := s_level bh (im_at im y x)) in *.
  assert (P : 0 < h). { unfold h, s_level. assert (IZR (Z.of_N (im_at im y x)) < 255) by (apply IZR_lt; lia).
    apply Rmult_lt_0_compat; [apply Rmult_lt_0_compat|]; lra. }
  destruct (T2 x j h H P) as [x0 [y0 [x1 [y1 [h' [I CV]]]]]]. destruct (T1 _ _ _ _ _ I) as [_ [_ [_ [_ Q]]]].
  destruct (Q x j CV) as [h2 [H2 D]]. assert (h2 = h).
  { destruct H as [row [A B]], H2 as [row' [A' B']]. rewrite A in A'. injection A' as <-. rewrite B in B'. injection B' as ->. auto. }
  subst h2. assert (h' = h). { destruct (Req_dec h h') as [|N]; auto. assert (0 < Rabs (h - h')) by (apply Rabs_pos_lt; lra). lra. }
  subst h'. destruct CV as [CX CY].
  assert (M : forall a b, (a <= b)%nat -> INR a * res <= INR b * res) by (intros a b L; apply Rmult_le_compat_r; [lra|apply le_INR; auto]).
  assert (B1 := M x0 x ltac:(lia)). assert (B2 := M (S x) x1 ltac:(lia)). assert (B3 := M y0 j ltac:(lia)). assert (B4 := M (S j) y1 ltac:(lia)).
  rewrite S_INR in B2, B4. destruct (square_in res h x0 y0 x1 y1 px py) as [a [b [c [IN TR]]]]; [lra|lra|].
  exists a, b, c. split; [|exact TR]. apply in_app_iff. left. apply in_flat_map. eexists. split; [exact I|]. exact IN.
Qed.
Lemma shift_triangle : forall ox oy a b c p, in_triangle a b c p -> in_triangle (s_shift ox oy a) (s_shift ox oy b) (s_shift ox oy c) (s_shift ox oy p).
Proof.
  intros ox oy a b c p [u [v [w [U [V [W [E ->]]]]]]]. exists u, v, w. repeat split; auto. unfold s_shift. cbn [vx vy vz].
  f_equal; [replace ox with ((u + v + w) * ox) at 1 by (rewrite E; ring)|replace oy with ((u + v + w) * oy) at 1 by (rewrite E; ring)]; ring.
Qed.
Theorem C83_pixels : forall atof imread can_write fuel prog inp out opts res bh ox oy im,
  s_opts atof opts res bh ox oy -> imread inp = Some im -> s_image im -> s_scale im res bh -> (33 <= fuel)%nat ->
  (3 <= String.length out)%nat -> can_write out = true ->
  exists m l n, height_image_to_file atof imread can_write fuel (prog :: inp :: out :: opts) = Ret (Run 0 (Some (out, m)) (Some (n, out))) /\
    soup_of m = Some l /\
    forall x y u v, (x < im_cols im)%nat -> (y < im_rows im)%nat -> (im_at im y x < 255)%N -> 0 <= u <= 1 -> 0 <= v <= 1 ->
      exists a b c, In (a, b, c) l /\
        in_triangle a b c (V3 (ox + (INR x + u) * res) (oy + (INR (im_rows im - 1 - y) + v) * res) (s_level bh (im_at im y x))).
Proof.
  intros atof imread can_write fuel prog inp out opts res bh ox oy im O I IM SC FU L W.
  destruct (C83_file atof imread can_write fuel prog inp out opts res bh ox oy im O I IM SC FU L W) as [m [l [n [H [S [E _]]]]]].
  exists m, (map (s_shift3 ox oy) l), n. split; [exact H|]. split; [exact E|]. intros x y u v X Y V U1 V1. destruct SC as [RS [BH _]].
  destruct (surface_pixel bh im res l x y ((INR x + u) * res) ((INR (im_rows im - 1 - y) + v) * res) S) as [a [b [c [A B]]]]; auto; try lra.
  { split; apply Rmult_le_compat_r; lra. } { split; apply Rmult_le_compat_r; lra. }
  exists (s_shift ox oy a), (s_shift ox oy b), (s_shift ox oy c). split.
  - apply in_map_iff. exists (a, b, c). auto.
  - apply (shift_triangle ox oy) in B. unfold s_shift in B at 4. cbn [vx vy vz] in B.
    replace (ox + (INR x + u) * res) with ((INR x + u) * res + ox) by ring. replace (oy + (INR (im_rows im - 1 - y) + v) * res) with ((INR (im_rows im - 1 - y) + v) * res + oy) by ring. exact B.
Qed.
(** an image that cannot be read, or a wrong number of arguments: exit code 1 and nothing written *)
Theorem C83_errors : forall (T : Type) (NT : Num T) (TT : Trig T) (atof : string -> T) imread can_write fuel argv,
  ((List.length argv < 3 \/ 7 < List.length argv)%nat \/ imread (nth 1 argv EmptyString) = None ->
   height_image_to_file atof imread can_write fuel argv = Ret (Run 1 None None)) /\
  ((List.length argv < 2 \/ 7 < List.length argv)%nat \/ imread (nth 1 argv EmptyString) = None ->
   height_image_to_shape atof imread can_write fuel argv = Ret (Run 1 None None)).
Proof.
  intros T NT TT atof imread can_write fuel argv. unfold height_image_to_file, height_image_to_shape, convert, file_args, shape_args.
  set (n := List.length argv). split; intros H.
  - destruct (Nat.ltb_spec n 3) as [A|A]; [reflexivity|]. destruct (Nat.ltb_spec 7 n) as [B|B]; [reflexivity|]. cbn [orb].
    destruct (Nat.ltb 6 n); unfold arg; cbn [rq_in]; (destruct H as [H| ->]; [lia|reflexivity]).
  - destruct (Nat.ltb_spec n 2) as [A|A]; [reflexivity|]. destruct (Nat.ltb_spec 7 n) as [B|B]; [reflexivity|]. cbn [orb].
    destruct (Nat.ltb 6 n); unfold arg; cbn [rq_in]; (destruct H as [H| ->]; [lia|reflexivity]).
Qed.

(** ** C84: the command line of height_image_to_shape *)
(** the program does what is documented for the file it writes next to the image, when one more argument is appended *)
Theorem C84_shape_partial : forall atof imread can_write fuel prog inp extra opts res bh ox oy im,
  s_opts atof opts res bh ox oy -> imread inp = Some im -> s_image im -> s_scale im res bh -> (33 <= fuel)%nat -> can_write (inp ++ ".geo")%string = true ->
  exists m l n, height_image_to_shape atof imread can_write fuel (prog :: inp :: opts ++ [extra]) =
      Ret (Run 0 (Some (inp ++ ".geo", m)%string) (Some (n, inp ++ ".geo")%string)) /\
    s_surface (s_image_grid bh im) (im_cols im) (im_rows im) res l /\ soup_of m = Some (map (s_shift3 ox oy) l).
Proof.
  intros atof imread can_write fuel prog inp extra opts res bh ox oy im O I IM SC FU W.
  destruct (convert_mesh fuel im res bh ox oy IM SC FU) as [hm [l [H [S E]]]].
  assert (P : shape_args atof (prog :: inp :: opts ++ [extra]) = Some (Req inp (inp ++ ".geo")%string res bh ox oy)) by (destruct O; reflexivity).
  eexists _, l, _. split; [|split; [exact S|exact E]].
  unfold height_image_to_shape, convert. rewrite P. cbn [rq_in rq_out rq_res rq_bh rq_ox rq_oy]. rewrite I, H. cbn [obind].
  unfold shape_write_to. rewrite W. reflexivity.
Qed.
(** the last documented argument is always ignored: two documented command lines that differ only there give the same result,
    and for the only mandatory option the resolution 0.2 is used whatever the user asks for *)
Theorem C84_last_ignored : forall (T : Type) (NT : Num T) (TT : Trig T) (atof : string -> T) imread can_write fuel prog inp front s s',
  (List.length front <= 1)%nat ->
  height_image_to_shape atof imread can_write fuel (prog :: inp :: front ++ [s]) =
  height_image_to_shape atof imread can_write fuel (prog :: inp :: front ++ [s']).
Proof.
  intros T NT TT atof imread can_write fuel prog inp front s s' L. unfold height_image_to_shape, convert.
  replace (shape_args atof (prog :: inp :: front ++ [s'])) with (shape_args atof (prog :: inp :: front ++ [s])); auto.
  destruct front as [|a [|b r]]; cbn [List.length] in L; try lia; reflexivity.
Qed.
(** and so is a documented origin *)
Theorem C84_origin_ignored : forall (T : Type) (NT : Num T) (TT : Trig T) (atof : string -> T) imread can_write fuel prog inp r b x y x' y',
  height_image_to_shape atof imread can_write fuel [prog; inp; r; b; x; y] =
  height_image_to_shape atof imread can_write fuel [prog; inp; r; b; x'; y'].
Proof. reflexivity. Qed.

(** a single black pixel *)
Definition ex_img : image := Img 1 1 (fun _ _ => 0%N).
Lemma ex_img_ok : s_image ex_img.
Proof. repeat split; cbn; try lia. Qed.
Lemma surface_points : forall g mx my res l, 0 < res -> s_surface g mx my res l -> forall a b c, In (a, b, c) l ->
  vx a <= INR mx * res /\ vx b <= INR mx * res /\ vx c <= INR mx * res.
Proof.
  intros g mx my res l RS [rs [Wx [Wy [[T1 _] [[X1 _] [[Y1 _] ->]]]]]] a b c I.
  assert (M : forall i j, (i <= j)%nat -> INR i * res <= INR j * res) by (intros i j L; apply Rmult_le_compat_r; [lra|apply le_INR; auto]).
  apply in_app_iff in I. destruct I as [I|I].
  - apply in_flat_map in I. destruct I as [[[[[x0 y0] x1] y1] h] [I J]]. destruct (T1 _ _ _ _ _ I) as [A _].
    assert (M1 := M x0 mx ltac:(lia)). assert (M2 := M x1 mx ltac:(lia)).
    destruct J as [J|[J|[]]]; injection J as <- <- <-; cbn [vx]; auto.
  - apply in_app_iff in I. destruct I as [I|I]; apply in_flat_map in I; destruct I as [[[[[i s] e] h] h2] [I J]].
    + destruct (X1 _ _ _ _ _ I) as [A _]. assert (M1 := M i mx A). destruct J as [J|[J|[]]]; injection J as <- <- <-; cbn [vx]; auto.
    + destruct (Y1 _ _ _ _ _ I) as [A [B _]]. assert (M1 := M s mx ltac:(lia)). assert (M2 := M e mx ltac:(lia)).
      destruct J as [J|[J|[]]]; injection J as <- <- <-; cbn [vx]; auto.
Qed.
(** "the documented options determine the written surface" is false: with resolution 1 asked for, a block of size 0.2 is written *)
Theorem C84_shape_refuted : exists (atof : string -> R) imread can_write fuel argv opts res bh ox oy im m l,
  argv = ["height_image_to_shape"; "a.png"]%string ++ opts /\ s_opts atof opts res bh ox oy /\ imread "a.png"%string = Some im /\ s_image im /\ s_scale im res bh /\
  height_image_to_shape atof imread can_write fuel argv = Ret (Run 0 (Some ("a.png.geo", m)%string) (Some (N.of_nat (List.length (m_tris m)), "a.png.geo"%string))) /\
  soup_of m = Some l /\ ~ (exists l', s_surface (s_image_grid bh im) (im_cols im) (im_rows im) res l' /\ l = map (s_shift3 ox oy) l').
Proof.
  assert (SC : forall r, 1 / 1000 <= r <= 1 -> s_scale ex_img r 1).
  { intros r Hr. unfold s_scale. cbn [ex_img im_cols im_rows]. change (INR 1) with 1. lra. }
  destruct (convert_mesh 33 ex_img (2 / 10) 1 0 0 ex_img_ok (SC (2 / 10) ltac:(lra)) (Nat.le_refl _)) as [hm [l [H [S E]]]].
  eexists (fun _ => 1), (fun _ => Some ex_img), (fun _ => true), 33%nat, _, ["1"%string], 1, 1, 0, 0, ex_img, _, (map (s_shift3 0 0) l).
  split; [reflexivity|]. split; [apply (so_res (fun _ => 1))|]. split; [reflexivity|]. split; [exact ex_img_ok|]. split; [apply SC; lra|].
  split; [|split; [exact E|]].
  - unfold height_image_to_shape, convert. cbn [shape_args app List.length Nat.ltb Nat.leb orb arg nth rq_in rq_out rq_res rq_bh rq_ox rq_oy].
    change (nlit 2 10 : R) with (2 / 10). change (n1 : R) with 1. rewrite H. reflexivity.
  - intros [l' [S' EQ]].
    destruct (surface_pixel 1 ex_img 1 l' 0 0 1 1 S') as [a [b [c [I TR]]]]; try (cbn; lra); try (cbn; lia).
    assert (I2 : In (s_shift3 0 0 (a, b, c)) (map (s_shift3 0 0) l)) by (rewrite EQ; apply in_map; auto).
    apply in_map_iff in I2. destruct I2 as [[[a' b'] c'] [Q I2]].
    destruct (surface_points _ _ _ (2 / 10) _ ltac:(lra) S _ _ _ I2) as [A [B C]]. cbn [ex_img im_cols] in A, B, C. change (INR 1) with 1 in A, B, C.
    assert (QA : vx a' = vx a /\ vx b' = vx b /\ vx c' = vx c) by (unfold s_shift3, s_shift in Q; injection Q; intros; lra). destruct QA as [QA [QB QC]]. destruct TR as [u [v [w [U [V [W [SU P]]]]]]]. apply (f_equal vx) in P. cbn [vx] in P.
    assert (vx a <= 1 / 5) by lra. assert (vx b <= 1 / 5) by lra. assert (vx c <= 1 / 5) by lra.
    assert (u * vx a + v * vx b + w * vx c <= u * (1 / 5) + v * (1 / 5) + w * (1 / 5)) by (repeat apply Rplus_le_compat; apply Rmult_le_compat_l; lra). lra.
Qed.
(** "the exit code tells whether the file was written" is false for both programs *)
Theorem C84_exit_refuted : exists (atof : string -> R) imread can_write fuel n n',
  height_image_to_shape atof imread can_write fuel ["height_image_to_shape"; "a.png"]%string = Ret (Run 0 None (Some (n, "a.png.geo"%string))) /\
  height_image_to_file atof imread can_write fuel ["height_image_to_file"; "a.png"; "/dev/full/a.stl"]%string = Ret (Run 0 None (Some (n', "/dev/full/a.stl"%string))).
Proof.
  assert (SC : s_scale ex_img (2 / 10) 1). { unfold s_scale. cbn [ex_img im_cols im_rows]. change (INR 1) with 1. lra. }
  destruct (convert_mesh 33 ex_img (2 / 10) 1 0 0 ex_img_ok SC (Nat.le_refl _)) as [hm [l [H [S E]]]].
  eexists (fun _ => 1), (fun _ => Some ex_img), (fun _ => false), 33%nat, _, _.
  split.
  - unfold height_image_to_shape, convert. cbn [shape_args app List.length Nat.ltb Nat.leb orb arg nth rq_in rq_out rq_res rq_bh rq_ox rq_oy].
    change (nlit 2 10 : R) with (2 / 10). change (n1 : R) with 1. rewrite H. reflexivity.
  - unfold height_image_to_file, convert. cbn [file_args app List.length Nat.ltb Nat.leb orb arg nth rq_in rq_out rq_res rq_bh rq_ox rq_oy].
    change (nlit 2 10 : R) with (2 / 10). change (n1 : R) with 1. rewrite H. reflexivity.
Qed.

(** a 2x2 image with two levels at 5 cm resolution meets the hypotheses of C83 *)
Example C83_nonvacuous : let im := Img 2 2 (fun y x => if Nat.eqb x y then 0%N else 255%N) in
  s_image im /\ s_scale im (1 / 20) 1 /\ s_opts (fun _ => 1 / 20) ["0.05"%string] (1 / 20) 1 0 0 /\ (im_at im 1 1 < 255)%N.
Proof.
  cbv zeta. split; [|split; [|split]].
  - repeat split; cbn [im_rows im_cols im_at]; try lia. intros y x. destruct (Nat.eqb x y); lia.
  - unfold s_scale. cbn [im_cols im_rows]. change (INR 2) with (1 + 1). lra.
  - apply (so_res (fun _ => 1 / 20)).
  - cbn. lia.
Qed.
Print Assumptions C83_file.
Print Assumptions C83_pixels.
Print Assumptions C83_errors.
Print Assumptions C84_shape_partial.
Print Assumptions C84_last_ignored.
Print Assumptions C84_origin_ignored.
Print Assumptions C84_shape_refuted.
Print Assumptions C84_exit_refuted.
