(** * Properties C18-C21: serialisation *)
From Coq Require Import ZArith NArith List Bool Ascii String Lia.
From Verif Require Import MathTypes Outcome Mesh Spec Serial P_Serial.
Import ListNotations.

(** a shape with one triangle, one coordinate being the NaN bit pattern, one +1.0 *)
Definition w1 : w64 := W64 NUL NUL NUL NUL NUL NUL (ascii_of_N 240) (ascii_of_N 63).
Definition w0 : w64 := W64 NUL NUL NUL NUL NUL NUL NUL NUL.
Definition ex_sm : smesh := SM [V3 w0 w1 wnan; V3 w1 w1 w1; V3 w0 w0 w1] [TI 0 1 2; TI 2 1 4294967295].
Example ex_storable : storable ex_sm.
Proof. repeat split; try reflexivity. repeat constructor; reflexivity. Qed.

(** ** C18 *)
Theorem C18_roundtrip : forall m rest, storable m ->
  shape_read (IS (write_body m ++ rest) false) = (m, IS rest false).
Proof. exact read_write. Qed.
(** through the public entry points, when the tag is found (see C19 for when it is) *)
Theorem C18_roundtrip_file : forall m garbage r behind, storable m ->
  List.length garbage = 8 -> reg_find mesh_tag r = Some Datatypes.tt ->
  fromFile (Some (toFile m)) r garbage (NUL :: behind) = Ret (Some m).
Proof.
  intros m garbage r behind H G R. unfold fromFile, toFile, serialize, shape_write, deserialize, deserialize_find, read_tag.
  rewrite sread_ok by auto. rewrite cstring_app by reflexivity. change (cstring (NUL :: behind)) with (Some (@nil byte)). cbn [option_map or_ub obind].
  change (mesh_tag ++ []) with mesh_tag. rewrite R.
  pose proof (read_write m [] H) as E. rewrite app_nil_r in E. rewrite E. reflexivity.
Qed.
Theorem C18_size : forall m,
  List.length (serialize m) = 8 + 4 + 24 * List.length (sm_points m) + 4 + 12 * List.length (sm_tris m).
Proof.
  intros. unfold serialize, shape_write, write_body. rewrite !app_length, !enc32_len, (concat_len _ _ 24), (concat_len _ _ 12) by reflexivity.
  change (List.length mesh_tag) with 8. lia.
Qed.
Example C18_nonvacuous : storable ex_sm /\ reg_find mesh_tag (registerDeserializer (list_ascii_of_string "mesh") Datatypes.tt []) = Some Datatypes.tt.
Proof. split. exact ex_storable. reflexivity. Qed.
Print Assumptions C18_roundtrip.
Print Assumptions C18_roundtrip_file.
Print Assumptions C18_size.

(** ** C19 *)
(** the tag written by serialize fills the whole buffer: the lookup always runs off its end *)
Theorem C19_overrun_refuted : forall m garbage, List.length garbage = 8 ->
  tag_terminated garbage (IS (serialize m) false) = false.
Proof.
  intros m garbage G. unfold tag_terminated, read_tag, serialize, shape_write. rewrite sread_ok by auto. reflexivity.
Qed.
(** what then happens is decided by the byte behind the buffer *)
Theorem C19_dispatch_partial : forall (M : Type) (r : @registry M) m garbage c behind, List.length garbage = 8 ->
  (c = NUL ->
     deserialize_find r garbage (c :: behind) (IS (serialize m) false) = Ret (reg_find mesh_tag r, IS (write_body m) false)) /\
  (c <> NUL -> (forall k x, In (k, x) r -> List.length k = 8) ->
     deserialize_find r garbage (c :: behind) (IS (serialize m) false) = Ret (None, IS (write_body m) false) \/
     deserialize_find r garbage (c :: behind) (IS (serialize m) false) = UB).
Proof.
  intros M r m garbage c behind G. unfold deserialize_find, read_tag, serialize, shape_write. rewrite sread_ok by auto.
  rewrite cstring_app by reflexivity. split.
  - intros ->. reflexivity.
  - intros N L. cbn [cstring]. destruct (Ascii.eqb_spec c NUL); [contradiction|].
    destruct (cstring behind) as [b|]; cbn [option_map or_ub obind]; auto. left. f_equal. f_equal.
    revert L. induction r as [|[k x] r IH]; intros L; auto. cbn [reg_find].
    destruct (bytes_eqb _ k) eqn:E.
    + apply bytes_eqb_eq in E. exfalso. specialize (L k x (or_introl eq_refl)). rewrite <- E in L.
      rewrite app_length in L. change (List.length mesh_tag) with 8 in L. cbn in L. lia.
    + apply IH. intros k' x' I. apply (L k' x'). right; auto.
Qed.
Theorem C19_dispatch_refuted : exists (m : smesh) garbage behind,
  List.length garbage = 8 /\
  fromFile (Some (toFile m)) (registerDeserializer (list_ascii_of_string "mesh") Datatypes.tt []) garbage behind = Ret None.
Proof.
  exists ex_sm, (repeat NUL 8), [ascii_of_N 120; NUL]. split; vm_compute; reflexivity.
Qed.
(** registration: padding, later registrations win, other tags are unaffected *)
Theorem C19_registry : forall (M : Type) (r : @registry M) k k' x,
  reg_find (pad8 k) (registerDeserializer k x r) = Some x /\
  (pad8 k' <> pad8 k -> reg_find (pad8 k') (registerDeserializer k x r) = reg_find (pad8 k') r) /\
  List.length (pad8 k) = 8 /\
  (forall i, i < 8 -> nth_error (pad8 k) i = if Nat.ltb i (List.length k) then nth_error k i else Some (ascii_of_N 32)).
Proof.
  intros M r k k' x. unfold registerDeserializer. cbn [reg_find]. repeat split.
  - assert (bytes_eqb (pad8 k) (pad8 k) = true) as -> by (apply bytes_eqb_eq; auto). auto.
  - intros N. destruct (bytes_eqb (pad8 k') (pad8 k)) eqn:E; auto. apply bytes_eqb_eq in E. contradiction.
  - apply pad8_len.
  - intros i I. unfold pad8. set (sp := list_ascii_of_string "        ").
    assert (FN : forall (A : Type) (l : list A) n i, i < n -> nth_error (firstn n l) i = nth_error l i).
    { induction l; destruct n; intros j J; try lia; cbn; auto. destruct j; cbn; auto. apply IHl. lia. }
    rewrite FN by auto. destruct (Nat.ltb_spec i (List.length k)).
    + apply nth_error_app1; auto.
    + rewrite nth_error_app2 by auto. unfold sp. 
      assert (J : i - List.length k < 8) by lia. revert J. generalize (i - List.length k).
      intros j J. do 8 (destruct j as [|j]; [reflexivity|]). lia.
Qed.
Example C19_nonvacuous : pad8 (list_ascii_of_string "mesh") = mesh_tag /\ pad8 (list_ascii_of_string "heightmap") = list_ascii_of_string "heightma".
Proof. split; reflexivity. Qed.
Print Assumptions C19_overrun_refuted.
Print Assumptions C19_dispatch_partial.
Print Assumptions C19_dispatch_refuted.
Print Assumptions C19_registry.

(** ** C20 *)
(** every cut inside the body leaves the stream failed (a caller could see it), but the returned
    shape is filled with invented data: missing points are NaN, missing triangles are (0,0,0),
    and counts are kept *)
Theorem C20_cut_anywhere : forall m k, storable m -> k < List.length (write_body m) ->
  let P := List.length (sm_points m) in
  let Tn := List.length (sm_tris m) in
  let (m', s') := shape_read (IS (firstn k (write_body m)) false) in
  s' = IS [] true /\
  (4 <= k -> List.length (sm_points m') = P) /\
  (4 <= k < 4 + 24 * P -> sm_tris m' = [] /\
      (forall i, 4 + 24 * (i + 1) <= k -> nth_error (sm_points m') i = nth_error (sm_points m) i) /\
      (forall i, k <= 4 + 24 * i -> i < P -> nth_error (sm_points m') i = Some (V3 wnan wnan wnan))) /\
  (4 + 24 * P <= k -> sm_points m' = sm_points m) /\
  (8 + 24 * P <= k -> List.length (sm_tris m') = Tn /\
      (forall i, 8 + 24 * P + 12 * (i + 1) <= k -> nth_error (sm_tris m') i = nth_error (sm_tris m) i) /\
      (forall i, k <= 8 + 24 * P + 12 * i -> i < Tn -> nth_error (sm_tris m') i = Some (TI 0 0 0))).
Proof. exact read_truncated. Qed.
(** what does hold: the stream state tells the two apart *)
Theorem C20_stream_state_partial : forall m k, storable m -> k <= List.length (write_body m) ->
  is_fail (snd (shape_read (IS (firstn k (write_body m)) false))) = true <-> k < List.length (write_body m).
Proof.
  intros m k H K. split.
  - intros F. destruct (Nat.eq_dec k (List.length (write_body m))) as [->|]; [|lia].
    rewrite firstn_all in F. pose proof (read_write m [] H) as E. rewrite app_nil_r in E. rewrite E in F. discriminate.
  - intros L. pose proof (read_truncated m k H L) as E. destruct (shape_read _) as [m' s']. destruct E as [-> _]. reflexivity.
Qed.
(** whatever the cut behind the tag, fromFile hands out a shape *)
Theorem C20_cut_file_accepted_refuted : forall m k garbage r behind, storable m ->
  List.length garbage = 8 -> reg_find mesh_tag r = Some Datatypes.tt -> 8 <= k ->
  exists m', fromFile (Some (firstn k (toFile m))) r garbage (NUL :: behind) = Ret (Some m').
Proof.
  intros m k garbage r behind H G R K. unfold fromFile, toFile, serialize, shape_write, deserialize, deserialize_find, read_tag.
  rewrite firstn_app_ge by auto.
  rewrite sread_ok by auto. rewrite cstring_app by reflexivity. change (cstring (NUL :: behind)) with (Some (@nil byte)). cbn [option_map or_ub obind].
  change (mesh_tag ++ []) with mesh_tag. rewrite R.
  destruct (shape_read _) as [m' s']. exists m'. reflexivity.
Qed.
(** a file that cannot be opened: nothing is read, so what the buffer held before decides whether the null pointer or an empty mesh is returned *)
Theorem C20_missing : forall r garbage behind, List.length garbage = 8 ->
  fromFile None r garbage behind = match cstring (garbage ++ behind) with
    | None => UB
    | Some key => Ret (match reg_find key r with None => None | Some _ => Some (SM [] []) end)
    end.
Proof.
  intros r garbage behind G. unfold fromFile, deserialize, deserialize_find, read_tag.
  assert (E : sread 8 garbage (IS [] true) = (garbage, IS [] true)) by reflexivity. rewrite E. destruct (cstring (garbage ++ behind)) as [key|]; [|reflexivity]. cbn [or_ub obind].
  destruct (reg_find key r) as [u|]; reflexivity.
Qed.
Theorem C20_missing_refuted : exists garbage behind, List.length garbage = 8 /\
  fromFile None (registerDeserializer (list_ascii_of_string "mesh") Datatypes.tt []) garbage behind = Ret (Some (SM [] [])).
Proof. exists mesh_tag, [NUL]. split; vm_compute; reflexivity. Qed.
Print Assumptions C20_missing.
Print Assumptions C20_missing_refuted.
(** concretely: cutting the example file in the middle of its second point *)
Theorem C20_refuted : exists m k m', storable m /\ k < List.length (toFile m) /\
  fromFile (Some (firstn k (toFile m))) (registerDeserializer (list_ascii_of_string "mesh") Datatypes.tt []) (repeat NUL 8) [NUL] = Ret (Some m') /\
  m' <> m /\ sm_tris m' = [] /\ nth_error (sm_points m') 2 = Some (V3 wnan wnan wnan).
Proof.
  exists ex_sm, 50. eexists. split; [exact ex_storable|]. split; [apply Nat.ltb_lt; vm_compute; reflexivity|]. split; [vm_compute; reflexivity|].
  split; [discriminate|]. split; reflexivity.
Qed.
Example C20_nonvacuous : storable ex_sm /\ 8 + 24 * 3 <= 90 < List.length (write_body ex_sm).
Proof. split. exact ex_storable. cbn. lia. Qed.
Print Assumptions C20_cut_anywhere.
Print Assumptions C20_stream_state_partial.
Print Assumptions C20_cut_file_accepted_refuted.
Print Assumptions C20_refuted.

(** ** C21 *)
Definition s_valid_sm (m : smesh) : Prop :=
  s_valid (List.length (sm_points m)) (map (fun t => (ti1 t, ti2 t, ti3 t)) (sm_tris m)).
Theorem C21_refuted : exists bytes, ~ s_valid_sm (fst (shape_read (IS bytes false))).
Proof.
  exists (enc32 0 ++ enc32 1 ++ enc32 7 ++ enc32 7 ++ enc32 7). intros V. specialize (V 7 7 7)%N.
  destruct V as [V _]; [vm_compute; auto|]. vm_compute in V. lia.
Qed.
(** only streams written from an index-valid mesh are safe *)
Theorem C21_written_partial : forall m rest, storable m -> s_valid_sm m ->
  s_valid_sm (fst (shape_read (IS (write_body m ++ rest) false))).
Proof. intros m rest H V. rewrite read_write by auto. exact V. Qed.
Example C21_nonvacuous : exists m, storable m /\ s_valid_sm m /\ sm_tris m <> [].
Proof.
  exists (SM [V3 w0 w1 w0; V3 w1 w1 w1; V3 w0 w0 w1] [TI 0 1 2]). split; [|split; [|discriminate]].
  - repeat split; try reflexivity. repeat constructor; reflexivity.
  - intros i j k [[= <- <- <-]|[]]. cbn. lia.
Qed.
Print Assumptions C21_refuted.
Print Assumptions C21_written_partial.
