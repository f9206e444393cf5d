(** Lemmas about serialisation. *)
From Coq Require Import ZArith NArith List Bool Ascii String Lia.
From Verif Require Import MathTypes Outcome Mesh Serial.
Import ListNotations.

(** *** words *)
Lemma enc32_len : forall n, List.length (enc32 n) = 4. Proof. reflexivity. Qed.
Lemma enc64_len : forall w, List.length (enc64 w) = 8. Proof. reflexivity. Qed.
Lemma dec_enc32 : forall n, (n < 2^32)%N -> dec32 (enc32 n) = n.
Proof.
  intros n H. change (2^32)%N with 4294967296%N in H. unfold dec32, enc32.
  rewrite !N_ascii_embedding by (apply N.mod_lt; discriminate).
  pose proof (N.div_mod n 256 ltac:(discriminate)) as E0.
  pose proof (N.div_mod (n/256) 256 ltac:(discriminate)) as E1.
  pose proof (N.div_mod (n/256/256) 256 ltac:(discriminate)) as E2.
  assert (E3 : (n / 65536 = n/256/256)%N) by (rewrite N.div_div by discriminate; reflexivity).
  assert (E4 : (n / 16777216 = n/256/256/256)%N) by (rewrite !N.div_div by discriminate; reflexivity).
  rewrite E4, E3.
  assert (n/256/256/256 < 256)%N.
  { rewrite !N.div_div by discriminate. apply N.div_lt_upper_bound; [discriminate|]. exact H. }
  rewrite (N.mod_small (n/256/256/256)) by auto. lia.
Qed.
Lemma dec_enc64 : forall w, dec64 (enc64 w) = w. Proof. intros []; reflexivity. Qed.
Lemma to_int_small : forall n, (n < 2^31)%N -> to_int n = Z.of_N n.
Proof. intros n H. unfold to_int. change (2^31)%N with 2147483648%N in H. apply N.ltb_lt in H. rewrite H. auto. Qed.
Lemma idx_roundtrip : forall n, (n < 2^32)%N -> Z.to_N (to_int n mod 4294967296) = n.
Proof.
  intros n H. change (2^32)%N with 4294967296%N in H. unfold to_int. destruct (N.ltb_spec n 2147483648).
  - rewrite Z.mod_small by lia. lia.
  - replace (Z.of_N n - 4294967296)%Z with (Z.of_N n + (-1) * 4294967296)%Z by lia.
    rewrite Z.mod_add, Z.mod_small by lia. lia.
Qed.

(** *** stream reads *)
Lemma sread_ok : forall n buf a r, List.length a = n -> List.length buf = n -> sread n buf (IS (a ++ r) false) = (a, IS r false).
Proof.
  intros n buf a r A B. unfold sread. cbn [is_fail is_rest]. subst n. rewrite firstn_app, Nat.sub_diag, firstn_all.
  cbn [firstn]. rewrite app_nil_r. rewrite <- B, skipn_all, app_nil_r.
  rewrite B, skipn_app, Nat.sub_diag, skipn_all. cbn [skipn app]. rewrite app_length.
  replace (Nat.ltb (List.length a + List.length r) (List.length a)) with false; auto. symmetry. apply Nat.ltb_ge. lia.
Qed.
Lemma sread_fail : forall n buf r, sread n buf (IS r true) = (buf, IS r true). Proof. reflexivity. Qed.
Lemma sread_short : forall n buf a, List.length a < n -> sread n buf (IS a false) = (a ++ skipn (List.length a) buf, IS [] true).
Proof.
  intros n buf a H. unfold sread. cbn [is_fail is_rest]. rewrite firstn_all2, (@skipn_all2 _ n a) by lia.
  apply Nat.ltb_lt in H. rewrite H. auto.
Qed.

Lemma read_int_ok : forall n r, (n < 2^32)%N -> read_int (IS (enc32 n ++ r) false) = (to_int n, IS r false).
Proof. intros. unfold read_int. rewrite sread_ok by reflexivity. rewrite dec_enc32 by auto. auto. Qed.
Lemma read_int_fail : forall r, read_int (IS r true) = (0%Z, IS r true).
Proof. reflexivity. Qed.
Lemma read_double_ok : forall w r, read_double (IS (enc64 w ++ r) false) = (w, IS r false).
Proof. intros. unfold read_double. rewrite sread_ok by reflexivity. rewrite dec_enc64. auto. Qed.
Lemma read_double_fail : forall r, read_double (IS r true) = (wnan, IS r true).
Proof. reflexivity. Qed.
Lemma read_idx_ok : forall n r, (n < 2^32)%N -> read_idx (IS (enc32 n ++ r) false) = (n, IS r false).
Proof. intros. unfold read_idx. rewrite read_int_ok by auto. rewrite idx_roundtrip by auto. auto. Qed.
Lemma read_idx_fail : forall r, read_idx (IS r true) = (0%N, IS r true). Proof. reflexivity. Qed.

Lemma read_points_ok : forall pts acc r,
  read_points (List.length pts) acc (IS (List.concat (map write_point pts) ++ r) false) = (acc ++ pts, IS r false).
Proof.
  induction pts as [|[x y z] p IH]; intros acc r; cbn [List.length read_points map List.concat].
  - cbn. rewrite app_nil_r. auto.
  - unfold write_point at 1. cbn [vx vy vz]. rewrite <- !app_assoc.
    rewrite read_double_ok. rewrite read_double_ok. rewrite read_double_ok. rewrite IH, <- app_assoc. auto.
Qed.
Definition tri_u32 (t : triI) : Prop := (ti1 t < 2^32 /\ ti2 t < 2^32 /\ ti3 t < 2^32)%N.
Lemma read_tris_ok : forall ts acc r, Forall tri_u32 ts ->
  read_tris (List.length ts) acc (IS (List.concat (map write_tri ts) ++ r) false) = (acc ++ ts, IS r false).
Proof.
  induction ts as [|[x y z] p IH]; intros acc r H; cbn [List.length read_tris map List.concat].
  - cbn. rewrite app_nil_r. auto.
  - unfold write_tri at 1. cbn [ti1 ti2 ti3]. rewrite <- !app_assoc. inversion H as [|t l [A [B C]] D]; subst. cbn [ti1 ti2 ti3] in *.
    rewrite read_idx_ok by auto. rewrite read_idx_ok by auto. rewrite read_idx_ok by auto. rewrite IH, <- app_assoc by auto. auto.
Qed.

Definition storable (m : smesh) : Prop :=
  (N.of_nat (List.length (sm_points m)) < 2^31)%N /\ (N.of_nat (List.length (sm_tris m)) < 2^31)%N /\ Forall tri_u32 (sm_tris m).

Lemma read_size : forall (A : Type) (l : list A) r, (N.of_nat (List.length l) < 2^31)%N ->
  exists z, read_int (IS (enc32 (N.of_nat (List.length l) mod 4294967296) ++ r) false) = (z, IS r false) /\ Z.to_nat z = List.length l.
Proof.
  intros A l r H. change (2^31)%N with 2147483648%N in H. rewrite N.mod_small by lia. rewrite read_int_ok by (change (2^32)%N with 4294967296%N; lia).
  eexists. split; [reflexivity|]. rewrite to_int_small by (change (2^31)%N with 2147483648%N; auto). lia.
Qed.

Lemma read_write : forall m rest, storable m -> shape_read (IS (write_body m ++ rest) false) = (m, IS rest false).
Proof.
  intros [pts ts] rest [A [B C]]. unfold shape_read, write_body. cbn [sm_points sm_tris] in *. rewrite <- !app_assoc.
  destruct (read_size _ pts (List.concat (map write_point pts) ++ enc32 (N.of_nat (List.length ts) mod 4294967296) ++ List.concat (map write_tri ts) ++ rest) A) as [z [-> ->]].
  rewrite read_points_ok.
  destruct (read_size _ ts (List.concat (map write_tri ts) ++ rest) B) as [z' [-> ->]].
  rewrite read_tris_ok by auto. auto.
Qed.

(** *** truncated input *)
Lemma read_points_fail : forall n acc r, read_points n acc (IS r true) = (acc ++ repeat (V3 wnan wnan wnan) n, IS r true).
Proof.
  induction n; intros; cbn [read_points repeat]. rewrite app_nil_r; auto.
  rewrite !read_double_fail. rewrite IHn, <- app_assoc. auto.
Qed.
Lemma read_tris_fail : forall n acc r, read_tris n acc (IS r true) = (acc ++ repeat (TI 0 0 0) n, IS r true).
Proof.
  induction n; intros; cbn [read_tris repeat]. rewrite app_nil_r; auto.
  rewrite !read_idx_fail. rewrite IHn, <- app_assoc. auto.
Qed.

(** read_double on a too short remainder *)
Lemma read_double_short : forall a, List.length a < 8 -> exists w, read_double (IS a false) = (w, IS [] true) /\ (a = [] -> w = wnan).
Proof.
  intros a H. unfold read_double. rewrite sread_short by auto. eexists. split; [reflexivity|]. intros ->. reflexivity.
Qed.
Lemma read_idx_short : forall a, List.length a < 4 -> exists w, read_idx (IS a false) = (w, IS [] true) /\ (a = [] -> w = 0%N).
Proof.
  intros a H. unfold read_idx, read_int. rewrite sread_short by auto. eexists. split; [reflexivity|]. intros ->. reflexivity.
Qed.

Lemma firstn_app_ge : forall (A : Type) k (a b : list A), List.length a <= k -> firstn k (a ++ b) = a ++ firstn (k - List.length a) b.
Proof. intros. rewrite firstn_app, firstn_all2 by lia. auto. Qed.
Lemma firstn_app_lt : forall (A : Type) k (a b : list A), k <= List.length a -> firstn k (a ++ b) = firstn k a.
Proof. intros. rewrite firstn_app. replace (k - List.length a) with 0 by lia. cbn. apply app_nil_r. Qed.

(** one point from a cut buffer *)
Lemma read_point_short : forall v k, k < 24 -> exists x y z,
  let '(x', s) := read_double (IS (firstn k (write_point v)) false) in
  let '(y', s) := read_double s in
  let '(z', s) := read_double s in
  (x', y', z', s) = (x, y, z, IS [] true) /\ (k = 0 -> x = wnan /\ y = wnan /\ z = wnan).
Proof.
  intros [vx vy vz] k K. unfold write_point. cbn [MathTypes.vx MathTypes.vy MathTypes.vz].
  destruct (le_lt_dec 8 k) as [K1|K1].
  - rewrite firstn_app_ge, enc64_len by auto. rewrite read_double_ok.
    destruct (le_lt_dec 16 k) as [K2|K2].
    + rewrite firstn_app_ge, enc64_len by (rewrite enc64_len; lia). rewrite read_double_ok.
      destruct (read_double_short (firstn (k - 8 - 8) (enc64 vz))) as [w [E _]]. rewrite firstn_length, enc64_len; lia.
      rewrite E. do 3 eexists. split; [reflexivity|]. lia.
    + rewrite firstn_app_lt by (rewrite enc64_len; lia).
      destruct (read_double_short (firstn (k - 8) (enc64 vy))) as [w [E _]]. rewrite firstn_length, enc64_len; lia.
      rewrite E, read_double_fail. do 3 eexists. split; [reflexivity|]. lia.
  - rewrite firstn_app_lt by (rewrite enc64_len; lia).
    destruct (read_double_short (firstn k (enc64 vx))) as [w [E W]]. rewrite firstn_length, enc64_len; lia.
    rewrite E, !read_double_fail. do 3 eexists. split; [reflexivity|]. intros ->. auto.
Qed.

Lemma write_point_len : forall v, List.length (write_point v) = 24. Proof. reflexivity. Qed.
Lemma write_tri_len : forall v, List.length (write_tri v) = 12. Proof. reflexivity. Qed.
Lemma concat_len : forall (A : Type) (f : A -> list byte) n l, (forall a, List.length (f a) = n) -> List.length (List.concat (map f l)) = n * List.length l.
Proof. induction l; cbn; intros. lia. rewrite app_length, H, IHl; auto. lia. Qed.

Lemma read_points_short : forall pts k, k < 24 * List.length pts ->
  exists l, (forall acc, read_points (List.length pts) acc (IS (firstn k (List.concat (map write_point pts))) false) = (acc ++ l, IS [] true)) /\
    List.length l = List.length pts /\
    (forall i, 24 * (i + 1) <= k -> nth_error l i = nth_error pts i) /\
    (forall i, k <= 24 * i -> i < List.length pts -> nth_error l i = Some (V3 wnan wnan wnan)).
Proof.
  induction pts as [|v r IH]; intros k K; [cbn in K; lia|].
  cbn [map List.concat]. destruct (le_lt_dec 24 k) as [K1|K1].
  - rewrite firstn_app_ge, write_point_len by (rewrite write_point_len; auto).
    destruct (IH (k - 24)) as [l [L1 [L2 [L3 L4]]]]. cbn in K; lia.
    exists (v :: l). split; [|split; [|split]].
    + intros acc. cbn [List.length read_points]. destruct v as [x y z]. unfold write_point at 1. cbn [vx vy vz]. rewrite <- !app_assoc.
      rewrite !read_double_ok. rewrite L1, <- app_assoc. auto.
    + cbn. lia.
    + intros [|i] I; auto. cbn. apply L3. lia.
    + intros [|i] I J. lia. cbn. apply L4; cbn in *; lia.
  - rewrite firstn_app_lt by (rewrite write_point_len; lia).
    destruct (read_point_short v k K1) as [x [y [z P]]].
    destruct (read_double _) as [x' s1] eqn:E1. destruct (read_double s1) as [y' s2] eqn:E2. destruct (read_double s2) as [z' s3] eqn:E3.
    destruct P as [[= -> -> -> ->] P0].
    exists (V3 x y z :: repeat (V3 wnan wnan wnan) (List.length r)). split; [|split; [|split]].
    + intros acc. cbn [List.length read_points]. rewrite E1, E2, E3, read_points_fail, <- app_assoc. auto.
    + cbn. rewrite repeat_length. auto.
    + intros i I. lia.
    + intros [|i] I J.
      * destruct P0 as [-> [-> ->]]; auto. lia.
      * cbn in *. rewrite nth_error_repeat; auto. lia.
Qed.

Lemma read_tri_short : forall v k, tri_u32 v -> k < 12 -> exists x y z,
  let '(x', s) := read_idx (IS (firstn k (write_tri v)) false) in
  let '(y', s) := read_idx s in
  let '(z', s) := read_idx s in
  (x', y', z', s) = (x, y, z, IS [] true) /\ (k = 0 -> x = 0%N /\ y = 0%N /\ z = 0%N).
Proof.
  intros [a b c] k [A [B C]] K. unfold write_tri. cbn [ti1 ti2 ti3] in *.
  destruct (le_lt_dec 4 k) as [K1|K1].
  - rewrite firstn_app_ge, enc32_len by auto. rewrite read_idx_ok by auto.
    destruct (le_lt_dec 8 k) as [K2|K2].
    + rewrite firstn_app_ge, enc32_len by (rewrite enc32_len; lia). rewrite read_idx_ok by auto.
      destruct (read_idx_short (firstn (k - 4 - 4) (enc32 c))) as [w [E _]]. rewrite firstn_length, enc32_len; lia.
      rewrite E. do 3 eexists. split; [reflexivity|]. lia.
    + rewrite firstn_app_lt by (rewrite enc32_len; lia).
      destruct (read_idx_short (firstn (k - 4) (enc32 b))) as [w [E _]]. rewrite firstn_length, enc32_len; lia.
      rewrite E, read_idx_fail. do 3 eexists. split; [reflexivity|]. lia.
  - rewrite firstn_app_lt by (rewrite enc32_len; lia).
    destruct (read_idx_short (firstn k (enc32 a))) as [w [E W]]. rewrite firstn_length, enc32_len; lia.
    rewrite E, !read_idx_fail. do 3 eexists. split; [reflexivity|]. intros ->. auto.
Qed.

Lemma read_tris_short : forall ts k, Forall tri_u32 ts -> k < 12 * List.length ts ->
  exists l, (forall acc, read_tris (List.length ts) acc (IS (firstn k (List.concat (map write_tri ts))) false) = (acc ++ l, IS [] true)) /\
    List.length l = List.length ts /\
    (forall i, 12 * (i + 1) <= k -> nth_error l i = nth_error ts i) /\
    (forall i, k <= 12 * i -> i < List.length ts -> nth_error l i = Some (TI 0 0 0)).
Proof.
  induction ts as [|v r IH]; intros k F K; [cbn in K; lia|]. inversion F as [|? ? F1 F2]; subst.
  cbn [map List.concat]. destruct (le_lt_dec 12 k) as [K1|K1].
  - rewrite firstn_app_ge, write_tri_len by (rewrite write_tri_len; auto).
    destruct (IH (k - 12) F2) as [l [L1 [L2 [L3 L4]]]]. cbn in K; lia.
    exists (v :: l). split; [|split; [|split]].
    + intros acc. cbn [List.length read_tris]. destruct v as [x y z]. destruct F1 as [A [B C]]. unfold write_tri at 1. cbn [ti1 ti2 ti3] in *. rewrite <- !app_assoc.
      rewrite !read_idx_ok by auto. rewrite L1, <- app_assoc. auto.
    + cbn. lia.
    + intros [|i] I; auto. cbn. apply L3. lia.
    + intros [|i] I J. lia. cbn. apply L4; cbn in *; lia.
  - rewrite firstn_app_lt by (rewrite write_tri_len; lia).
    destruct (read_tri_short v k F1 K1) as [x [y [z P]]].
    destruct (read_idx (IS (firstn k (write_tri v)) false)) as [x' s1] eqn:E1. destruct (read_idx s1) as [y' s2] eqn:E2. destruct (read_idx s2) as [z' s3] eqn:E3.
    destruct P as [[= -> -> -> ->] P0].
    exists (TI x y z :: repeat (TI 0 0 0) (List.length r)). split; [|split; [|split]].
    + intros acc. cbn [List.length read_tris]. rewrite E1, E2, E3, read_tris_fail, <- app_assoc. auto.
    + cbn. rewrite repeat_length. auto.
    + intros i I. lia.
    + intros [|i] I J.
      * destruct P0 as [-> [-> ->]]; auto. lia.
      * cbn in *. rewrite nth_error_repeat; auto. lia.
Qed.

(** what shape_read makes of a cut body *)
Lemma read_truncated : forall m k, storable m -> k < List.length (write_body m) ->
  let P := List.length (sm_points m) in
  let Tn := List.length (sm_tris m) in
  let (m', s') := shape_read (IS (firstn k (write_body m)) false) in
  s' = IS [] true /\
  (4 <= k -> List.length (sm_points m') = P) /\
  (4 <= k < 4 + 24 * P -> sm_tris m' = [] /\
      (forall i, 4 + 24 * (i + 1) <= k -> nth_error (sm_points m') i = nth_error (sm_points m) i) /\
      (forall i, k <= 4 + 24 * i -> i < P -> nth_error (sm_points m') i = Some (V3 wnan wnan wnan))) /\
  (4 + 24 * P <= k -> sm_points m' = sm_points m) /\
  (8 + 24 * P <= k -> List.length (sm_tris m') = Tn /\
      (forall i, 8 + 24 * P + 12 * (i + 1) <= k -> nth_error (sm_tris m') i = nth_error (sm_tris m) i) /\
      (forall i, k <= 8 + 24 * P + 12 * i -> i < Tn -> nth_error (sm_tris m') i = Some (TI 0 0 0))).
Proof.
  intros [pts ts] k [A [B C]] K. cbn [sm_points sm_tris] in *. cbv zeta.
  unfold write_body in *. cbn [sm_points sm_tris] in *.
  rewrite !app_length, !enc32_len, (concat_len _ _ 24), (concat_len _ _ 12) in K by reflexivity.
  assert (LP : List.length (List.concat (map write_point pts)) = 24 * List.length pts) by (apply concat_len; reflexivity).
  unfold shape_read. destruct (le_lt_dec 4 k) as [K1|K1].
  - rewrite firstn_app_ge, enc32_len by auto.
    match goal with |- context [read_int (IS (_ ++ ?r) false)] => destruct (read_size _ pts r A) as [z [-> ->]] end.
    destruct (le_lt_dec (4 + 24 * List.length pts) k) as [K2|K2].
    + rewrite firstn_app_ge, LP by (rewrite LP; lia). rewrite read_points_ok. cbn [app].
      destruct (le_lt_dec (8 + 24 * List.length pts) k) as [K3|K3].
      * rewrite firstn_app_ge, enc32_len by (rewrite enc32_len; lia).
        match goal with |- context [read_int (IS (_ ++ ?r) false)] => destruct (read_size _ ts r B) as [z' [-> ->]] end.
        destruct (read_tris_short ts (k - 4 - 24 * List.length pts - 4) C) as [l [L1 [L2 [L3 L4]]]]; [lia|].
        rewrite L1. cbn [app sm_points sm_tris]. repeat split; auto; try lia.
        -- intros i I. apply L3. lia.
        -- intros i I J. apply L4; auto. lia.
      * rewrite firstn_app_lt by (rewrite enc32_len; lia). unfold read_int. rewrite sread_short by (rewrite firstn_length, enc32_len; lia).
        cbv beta iota. rewrite read_tris_fail. cbn [app sm_points sm_tris]. repeat split; auto; lia.
    + rewrite firstn_app_lt by (rewrite LP; lia).
      destruct (read_points_short pts (k - 4)) as [l [L1 [L2 [L3 L4]]]]; [lia|]. rewrite L1.
      rewrite read_int_fail. cbn [Z.to_nat read_tris app sm_points sm_tris]. repeat split; auto; try lia.
      -- intros i I. apply L3. lia.
      -- intros i I J. apply L4; auto. lia.
  - rewrite firstn_app_lt by (rewrite enc32_len; lia). unfold read_int at 1. rewrite sread_short by (rewrite firstn_length, enc32_len; lia).
    cbv beta iota. rewrite read_points_fail, read_int_fail. cbn [Z.to_nat read_tris app]. repeat split; auto; lia.
Qed.

(** *** tags *)
Lemma bytes_eqb_eq : forall a b, bytes_eqb a b = true <-> a = b.
Proof.
  induction a as [|x a IH]; destruct b as [|y b]; cbn; split; try congruence; auto.
  - rewrite andb_true_iff, IH, Ascii.eqb_eq. intros [-> ->]; auto.
  - intros [= -> ->]. rewrite andb_true_iff, IH, Ascii.eqb_eq. auto.
Qed.
Lemma cstring_app : forall a b, existsb (fun c => Ascii.eqb c NUL) a = false -> cstring (a ++ b) = option_map (app a) (cstring b).
Proof.
  induction a as [|c a IH]; cbn; intros b H. destruct (cstring b); auto.
  apply orb_false_iff in H. destruct H as [-> H]. rewrite IH by auto. destruct (cstring b); auto.
Qed.
Lemma pad8_len : forall k, List.length (pad8 k) = 8.
Proof. intros. unfold pad8. rewrite firstn_length, app_length. change (List.length (list_ascii_of_string "        ")) with 8. lia. Qed.
