(** * C107: integer vectors, matrices and transforms, default and filling constructors *)
From Coq Require Import ZArith List Bool Lia Reals Lra.
From Flocq Require Import Core BinarySingleNaN.
From Verif Require Import Num MathTypes Operators Outcome IntTypes SpecRound P_Round P_OctF P_KeyF P_MeshGeo.
Import ListNotations.

(** ** specification: integer linear algebra *)
Definition s_iv (a : vec3 Z) : vec3 cint := V3 (IVal (vx a)) (IVal (vy a)) (IVal (vz a)).
Definition s_im (m : mat3 Z) : mat3 cint :=
  M3 (IVal (mxx m)) (IVal (mxy m)) (IVal (mxz m)) (IVal (myx m)) (IVal (myy m)) (IVal (myz m)) (IVal (mzx m)) (IVal (mzy m)) (IVal (mzz m)).
Definition s_it (t : trans3 Z) : trans3 cint := T3 (s_im (tR t)) (s_iv (MathTypes.tt t)).
Definition s_uw (z : Z) : cuint := UVal (z mod 2 ^ 32).
Definition s_uv (a : vec3 Z) : vec3 cuint := V3 (s_uw (vx a)) (s_uw (vy a)) (s_uw (vz a)).
Definition s_um (m : mat3 Z) : mat3 cuint :=
  M3 (s_uw (mxx m)) (s_uw (mxy m)) (s_uw (mxz m)) (s_uw (myx m)) (s_uw (myy m)) (s_uw (myz m)) (s_uw (mzx m)) (s_uw (mzy m)) (s_uw (mzz m)).
Definition s_ut (t : trans3 Z) : trans3 cuint := T3 (s_um (tR t)) (s_uv (MathTypes.tt t)).
Local Open Scope Z_scope.
Definition s_zdot (a b : vec3 Z) : Z := vx a * vx b + vy a * vy b + vz a * vz b.
Definition s_zcross (a b : vec3 Z) : vec3 Z := V3 (vy a * vz b - vz a * vy b) (vz a * vx b - vx a * vz b) (vx a * vy b - vy a * vx b).
Definition s_zrow (m : mat3 Z) (i : nat) : vec3 Z :=
  match i with O => V3 (mxx m) (mxy m) (mxz m) | S O => V3 (myx m) (myy m) (myz m) | _ => V3 (mzx m) (mzy m) (mzz m) end.
Definition s_zcol (m : mat3 Z) (i : nat) : vec3 Z :=
  match i with O => V3 (mxx m) (myx m) (mzx m) | S O => V3 (mxy m) (myy m) (mzy m) | _ => V3 (mxz m) (myz m) (mzz m) end.
Definition s_zmulv (m : mat3 Z) (v : vec3 Z) : vec3 Z := V3 (s_zdot (s_zrow m 0) v) (s_zdot (s_zrow m 1) v) (s_zdot (s_zrow m 2) v).
Definition s_zmul (a b : mat3 Z) : mat3 Z :=
  let e i j := s_zdot (s_zrow a i) (s_zcol b j) in M3 (e 0 0)%nat (e 0 1)%nat (e 0 2)%nat (e 1 0)%nat (e 1 1)%nat (e 1 2)%nat (e 2 0)%nat (e 2 1)%nat (e 2 2)%nat.
Definition s_zplus (a b : vec3 Z) : vec3 Z := V3 (vx a + vx b) (vy a + vy b) (vz a + vz b).
Definition s_zapply (t : trans3 Z) (v : vec3 Z) : vec3 Z := s_zplus (s_zmulv (tR t) v) (MathTypes.tt t).
(** components of absolute value at most k *)
Definition s_vle (k : Z) (a : vec3 Z) : Prop := Z.abs (vx a) <= k /\ Z.abs (vy a) <= k /\ Z.abs (vz a) <= k.
Definition s_mle (k : Z) (m : mat3 Z) : Prop := s_vle k (s_zrow m 0) /\ s_vle k (s_zrow m 1) /\ s_vle k (s_zrow m 2).
(** integer matrices with orthonormal columns: the signed permutations of the axes *)
Definition s_zrot (m : mat3 Z) : Prop := forall i j, (i < 3)%nat -> (j < 3)%nat -> s_zdot (s_zcol m i) (s_zcol m j) = if Nat.eqb i j then 1 else 0.

(** ** int *)
Lemma ick_in : forall z, -2147483648 <= z <= 2147483647 -> ick z = IVal z.
Proof. intros z H. unfold ick. destruct (Z.leb_spec (-2147483648) z), (Z.leb_spec z 2147483647); cbn; auto; lia. Qed.
Lemma ick_out : forall z w, ick z = IVal w -> w = z /\ -2147483648 <= z <= 2147483647.
Proof. intros z w H. unfold ick in H. destruct (Z.leb_spec (-2147483648) z), (Z.leb_spec z 2147483647); cbn in H; try discriminate. injection H as ->. lia. Qed.
Lemma add_inv : forall (a b : cint) z, nadd a b = IVal z -> exists x y, a = IVal x /\ b = IVal y /\ z = x + y.
Proof. intros [x|] [y|] z H; cbn in H; try discriminate. apply ick_out in H as [-> _]. eauto. Qed.
Lemma sub_inv : forall (a b : cint) z, nsub a b = IVal z -> exists x y, a = IVal x /\ b = IVal y /\ z = x - y.
Proof. intros [x|] [y|] z H; cbn in H; try discriminate. apply ick_out in H as [-> _]. eauto. Qed.
Lemma mul_inv : forall (a b : cint) z, nmul a b = IVal z -> exists x y, a = IVal x /\ b = IVal y /\ z = x * y.
Proof. intros [x|] [y|] z H; cbn in H; try discriminate. apply ick_out in H as [-> _]. eauto. Qed.
Lemma opp_inv : forall (a : cint) z, nopp a = IVal z -> exists x, a = IVal x /\ z = - x.
Proof. intros [x|] z H; cbn in H; try discriminate. apply ick_out in H as [-> _]. eauto. Qed.
Lemma v3_inj : forall (T : Type) (a b c a' b' c' : T), V3 a b c = V3 a' b' c' -> a = a' /\ b = b' /\ c = c'.
Proof. intros T a b c a' b' c' H. injection H as -> -> ->. auto. Qed.
Ltac inv_int := repeat match goal with
  | H : nadd _ _ = IVal _ |- _ => apply add_inv in H as (? & ? & ? & ? & ?)
  | H : nsub _ _ = IVal _ |- _ => apply sub_inv in H as (? & ? & ? & ? & ?)
  | H : nmul _ _ = IVal _ |- _ => apply mul_inv in H as (? & ? & ? & ? & ?)
  | H : nopp _ = IVal _ |- _ => apply opp_inv in H as (? & ? & ?)
  | H : IVal _ = IVal _ |- _ => injection H as ?
  end.

(** the results of int operations are exact whenever they are defined *)
Theorem C107_int_exact : forall (a b : vec3 Z) (m : mat3 Z) (t : trans3 Z) d c v w,
  (vdot (s_iv a) (s_iv b) = IVal d -> d = s_zdot a b) /\
  (vcross (s_iv a) (s_iv b) = s_iv c -> c = s_zcross a b) /\
  (m3mulv (s_im m) (s_iv a) = s_iv v -> v = s_zmulv m a) /\
  (tapply (s_it t) (s_iv a) = s_iv w -> w = s_zapply t a).
Proof.
  intros [ax ay az] [bx by_ bz] [a0 a1 a2 a3 a4 a5 a6 a7 a8] [[b0 b1 b2 b3 b4 b5 b6 b7 b8] [tx ty tz]] d [cx cy cz] [v1 v2 v3] [w1 w2 w3].
  unfold vdot, vcross, tapply, m3mulv, vadd, s_it, s_im, s_iv, s_zcross, s_zapply, s_zplus, s_zmulv, s_zdot, s_zrow.
  cbn [vx vy vz mxx mxy mxz myx myy myz mzx mzy mzz tR MathTypes.tt s_zdot]. split; [|split; [|split]].
  - intros H. inv_int. subst. reflexivity.
  - intros H. apply v3_inj in H as [H1 [H2 H3]]. inv_int. subst. reflexivity.
  - intros H. apply v3_inj in H as [H1 [H2 H3]]. inv_int. subst. reflexivity.
  - intros H. apply v3_inj in H as [H1 [H2 H3]]. inv_int. subst. reflexivity.
Qed.
(** so composing int transforms and applying them one after the other give the same point if neither overflows *)
Theorem C107_int_compose : forall (A B : trans3 Z) (v w w' : vec3 Z),
  tapply (tmul (s_it A) (s_it B)) (s_iv v) = s_iv w -> tapply (s_it A) (tapply (s_it B) (s_iv v)) = s_iv w' -> w = w'.
Proof.
  intros [[a0 a1 a2 a3 a4 a5 a6 a7 a8] [tx ty tz]] [[b0 b1 b2 b3 b4 b5 b6 b7 b8] [sx sy sz]] [vx0 vy0 vz0] [w1 w2 w3] [u1 u2 u3].
  unfold tapply, tmul, m3mulv, m3mul, vadd, s_it, s_im, s_iv. cbn [vx vy vz mxx mxy mxz myx myy myz mzx mzy mzz tR MathTypes.tt].
  intros H K. apply v3_inj in H as [H1 [H2 H3]]. apply v3_inj in K as [K1 [K2 K3]].
  f_equal; [clear H2 H3 K2 K3|clear H1 H3 K1 K3|clear H1 H2 K1 K2]; inv_int; subst; inv_int; subst; ring.
Qed.

Lemma sq_le : forall k x y, 0 <= k -> Z.abs x <= k -> Z.abs y <= k -> Z.abs (x * y) <= k * k.
Proof. intros k x y K X Y. rewrite Z.abs_mul. apply Z.mul_le_mono_nonneg; lia. Qed.
Ltac pq x y X Y := let H := fresh "S" in pose proof (sq_le 26754 x y (Zle_0_pos 26754) X Y) as H; change (26754 * 26754) with 715776516 in H.
Lemma dot_def : forall a b, s_vle 26754 a -> s_vle 26754 b -> vdot (s_iv a) (s_iv b) = IVal (s_zdot a b).
Proof.
  intros [ax ay az] [bx by_ bz] [A1 [A2 A3]] [B1 [B2 B3]]. unfold vdot, s_iv, s_zdot. cbn [vx vy vz] in *.
  pq ax bx A1 B1. pq ay by_ A2 B2. pq az bz A3 B3. cbn [nadd nmul NumI iop].
  rewrite !ick_in by lia. cbn [iop]. rewrite !ick_in by lia. cbn [iop]. rewrite !ick_in by lia. reflexivity.
Qed.
(** components up to 26754 never overflow *)
Theorem C107_int_bound : forall (a b : vec3 Z) (m n : mat3 Z), s_vle 26754 a -> s_vle 26754 b -> s_mle 26754 m -> s_mle 26754 n ->
  vdot (s_iv a) (s_iv b) = IVal (s_zdot a b) /\ vlength2 (s_iv a) = IVal (s_zdot a a) /\ vcross (s_iv a) (s_iv b) = s_iv (s_zcross a b) /\
  m3mulv (s_im m) (s_iv a) = s_iv (s_zmulv m a) /\ m3mul (s_im m) (s_im n) = s_im (s_zmul m n).
Proof.
  intros a b m n A B M N. split; [apply dot_def; auto|]. split; [apply (dot_def a a); auto|]. split; [|split].
  - destruct a as [ax ay az], b as [bx by_ bz]. destruct A as [A1 [A2 A3]], B as [B1 [B2 B3]]. cbn [vx vy vz] in *. unfold vcross, s_iv, s_zcross. cbn [vx vy vz].
    pq ay bz A2 B3. pq az by_ A3 B2. pq az bx A3 B1. pq ax bz A1 B3. pq ax by_ A1 B2. pq ay bx A2 B1. clear A1 A2 A3 B1 B2 B3.
    cbn [nsub nmul NumI iop]. rewrite !ick_in by lia. cbn [iop]. rewrite !ick_in by lia. reflexivity.
  - destruct M as [M1 [M2 M3]]. apply (f_equal3 V3); [apply (dot_def (s_zrow m 0) a)|apply (dot_def (s_zrow m 1) a)|apply (dot_def (s_zrow m 2) a)]; auto.
  - assert (C : forall j, s_vle 26754 (s_zcol n j)).
    { destruct N as [[N1 [N2 N3]] [[N4 [N5 N6]] [N7 [N8 N9]]]]. intros [|[|j]]; split; auto. }
    destruct M as [M1 [M2 M3]].
    assert (E : forall i j, s_vle 26754 (s_zrow m i) -> vdot (s_iv (s_zrow m i)) (s_iv (s_zcol n j)) = IVal (s_zdot (s_zrow m i) (s_zcol n j))) by (intros i j R; apply dot_def; auto).
    unfold s_zmul, s_im, m3mul. cbn [mxx mxy mxz myx myy myz mzx mzy mzz].
    f_equal; [apply (E 0 0)%nat|apply (E 0 1)%nat|apply (E 0 2)%nat|apply (E 1 0)%nat|apply (E 1 1)%nat|apply (E 1 2)%nat|apply (E 2 0)%nat|apply (E 2 1)%nat|apply (E 2 2)%nat]; auto.
Qed.
(** and the bound is the largest one *)
Theorem C107_int_bound_sharp : vlength2 (s_iv (V3 26755 26755 26755)) = IUndef.
Proof. reflexivity. Qed.

(** int transforms with signed permutation matrices are inverted exactly *)
Lemma zrot_entries : forall m, s_zrot m -> s_mle 1 m.
Proof.
  intros m H. pose proof (H 0 0 ltac:(lia) ltac:(lia))%nat as H0. pose proof (H 1 1 ltac:(lia) ltac:(lia))%nat as H1. pose proof (H 2 2 ltac:(lia) ltac:(lia))%nat as H2. clear H.
  destruct m as [a b c d e f g h i]. unfold s_zdot, s_zcol in *. cbn [vx vy vz mxx mxy mxz myx myy myz mzx mzy mzz Nat.eqb] in *.
  unfold s_mle, s_vle, s_zrow. cbn [vx vy vz mxx mxy mxz myx myy myz mzx mzy mzz]. repeat split; nia.
Qed.
Lemma one_le : forall k x y, Z.abs x <= 1 -> Z.abs y <= k -> Z.abs (x * y) <= k.
Proof. intros k x y X Y. rewrite Z.abs_mul. nia. Qed.
Lemma row_def : forall k r v, 3 * k <= 2147483647 -> s_vle 1 r -> s_vle k v ->
  vdot (s_iv r) (s_iv v) = IVal (s_zdot r v) /\ Z.abs (s_zdot r v) <= 3 * k.
Proof.
  intros k [a b c] [x y z] K [A [B C]] [X [Y Z]]. unfold vdot, s_iv, s_zdot. cbn [vx vy vz] in *.
  pose proof (one_le k a x A X). pose proof (one_le k b y B Y). pose proof (one_le k c z C Z). cbn [nadd nmul NumI iop].
  rewrite !ick_in by lia. cbn [iop]. rewrite !ick_in by lia. cbn [iop]. rewrite !ick_in by lia. split; [reflexivity|lia].
Qed.
Lemma mulv_def : forall k m v, 3 * k <= 2147483647 -> s_mle 1 m -> s_vle k v ->
  m3mulv (s_im m) (s_iv v) = s_iv (s_zmulv m v) /\ s_vle (3 * k) (s_zmulv m v).
Proof.
  intros k m v K [M1 [M2 M3]] V. destruct (row_def k _ v K M1 V), (row_def k _ v K M2 V), (row_def k _ v K M3 V). split.
  - apply (f_equal3 V3); assumption.
  - split; [|split]; assumption.
Qed.
Lemma apply_def : forall k l t v, 3 * k + l <= 2147483647 -> 0 <= l -> s_mle 1 (tR t) -> s_vle k v -> s_vle l (MathTypes.tt t) ->
  tapply (s_it t) (s_iv v) = s_iv (s_zapply t v) /\ s_vle (3 * k + l) (s_zapply t v).
Proof.
  intros k l [m t] v K L M V T. cbn [tR MathTypes.tt] in *. destruct (mulv_def k m v ltac:(lia) M V) as [E [X [Y Z]]]. destruct T as [T1 [T2 T3]].
  unfold tapply, s_it, s_zapply. cbn [tR MathTypes.tt]. rewrite E. unfold vadd, s_iv, s_zplus, s_vle. cbn [vx vy vz nadd NumI iop].
  rewrite !ick_in by lia. split; [reflexivity|lia].
Qed.
Definition zinv (t : trans3 Z) : trans3 Z := let m := m3transpose (tR t) in T3 m (s_zmulv m (V3 (- vx (MathTypes.tt t)) (- vy (MathTypes.tt t)) (- vz (MathTypes.tt t)))).
Lemma tr_le : forall k m, s_mle k m -> s_mle k (m3transpose m).
Proof. intros k [a b c d e f g h i] [[A [B C]] [[D [E F]] [G [H I]]]]. cbn [vx vy vz s_zrow mxx mxy mxz myx myy myz mzx mzy mzz] in *. repeat split; assumption. Qed.
Lemma inv_def : forall t, s_mle 1 (tR t) -> s_vle 214748364 (MathTypes.tt t) -> tinverse (s_it t) = s_it (zinv t) /\ s_vle 644245092 (MathTypes.tt (zinv t)).
Proof.
  intros [m [x y z]] M [X [Y Z]]. cbn [tR MathTypes.tt vx vy vz] in *. unfold tinverse, zinv, s_it. cbn [tR MathTypes.tt vx vy vz].
  destruct (mulv_def 214748364 (m3transpose m) (V3 (- x) (- y) (- z)) ltac:(lia)) as [E B].
  { apply tr_le; exact M. }
  { unfold s_vle. cbn [vx vy vz]. lia. }
  split; [|exact B]. change (m3transpose (s_im m)) with (s_im (m3transpose m)). f_equal. rewrite <- E. f_equal.
  unfold vopp, s_iv. cbn [vx vy vz nopp NumI iun]. rewrite !ick_in by lia. reflexivity.
Qed.
Lemma zinv_apply : forall t v, s_zrot (tR t) -> s_zapply (zinv t) (s_zapply t v) = v.
Proof.
  intros [m [tx ty tz]] [x y z] H.
  assert (D : forall i j, (i < 3)%nat -> (j < 3)%nat -> s_zdot (s_zcol m i) (s_zcol m j) = if Nat.eqb i j then 1 else 0) by exact H. clear H.
  pose proof (D 0 0 ltac:(lia) ltac:(lia))%nat as D00. pose proof (D 0 1 ltac:(lia) ltac:(lia))%nat as D01. pose proof (D 0 2 ltac:(lia) ltac:(lia))%nat as D02.
  pose proof (D 1 1 ltac:(lia) ltac:(lia))%nat as D11. pose proof (D 1 2 ltac:(lia) ltac:(lia))%nat as D12. pose proof (D 2 2 ltac:(lia) ltac:(lia))%nat as D22. clear D.
  destruct m as [a b c d e f g h i]. unfold zinv, s_zapply, s_zplus, s_zmulv, s_zdot, s_zrow, s_zcol, m3transpose in *.
  cbn [vx vy vz mxx mxy mxz myx myy myz mzx mzy mzz tR MathTypes.tt Nat.eqb] in *. f_equal.
  - transitivity ((a * a + d * d + g * g) * x + (a * b + d * e + g * h) * y + (a * c + d * f + g * i) * z); [ring|rewrite D00, D01, D02; ring].
  - transitivity ((a * b + d * e + g * h) * x + (b * b + e * e + h * h) * y + (b * c + e * f + h * i) * z); [ring|rewrite D01, D11, D12; ring].
  - transitivity ((a * c + d * f + g * i) * x + (b * c + e * f + h * i) * y + (c * c + f * f + i * i) * z); [ring|rewrite D02, D12, D22; ring].
Qed.
Theorem C107_int_inverse : forall (t : trans3 Z) (v : vec3 Z), s_zrot (tR t) -> s_vle 100000000 (MathTypes.tt t) -> s_vle 100000000 v ->
  tapply (s_it t) (s_iv v) = s_iv (s_zapply t v) /\ tapply (tinverse (s_it t)) (tapply (s_it t) (s_iv v)) = s_iv v.
Proof.
  intros t v R T V. pose proof (zrot_entries _ R) as M.
  destruct (apply_def 100000000 100000000 t v ltac:(lia) ltac:(lia) M V T) as [E B]. split; [exact E|]. rewrite E.
  assert (T' : s_vle 100000000 (V3 (- vx (MathTypes.tt t)) (- vy (MathTypes.tt t)) (- vz (MathTypes.tt t)))) by (destruct T as [? [? ?]]; unfold s_vle; cbn [vx vy vz]; lia).
  destruct (mulv_def 100000000 (m3transpose (tR t)) _ ltac:(lia) (tr_le _ _ M) T') as [_ BI].
  destruct (inv_def t M) as [EI _]; [destruct T as [? [? ?]]; unfold s_vle; lia|]. rewrite EI.
  destruct (apply_def 400000000 300000000 (zinv t) (s_zapply t v) ltac:(lia) ltac:(lia) (tr_le _ _ M) B BI) as [E2 _].
  rewrite E2, zinv_apply by exact R. reflexivity.
Qed.

(** ** length and normalisation *)
Lemma isqrt_spec : forall n, 0 <= n < 4294967296 -> isqrt n = Some (Z.sqrt n).
Proof.
  intros n N. unfold isqrt. apply toint_F. destruct (ofZ_R n) as [F V]; [change (2 ^ 53) with 9007199254740992; lia|].
  assert (P : (0 <= IZR n)%R) by (apply IZR_le; lia). destruct (sqrt_R (nofZ n : F64)) as [F2 V2]; [exact F|rewrite V; exact P|]. rewrite V in V2.
  split; [exact F2|]. rewrite V2. set (k := Z.sqrt n). destruct (Z.sqrt_spec n ltac:(lia)) as [S1 S2]. fold k in S1, S2.
  pose proof (Z.sqrt_nonneg n) as K0. fold k in K0. assert (K : k <= 65535) by nia.
  assert (L : (IZR k <= sqrt (IZR n))%R).
  { rewrite <- (sqrt_square (IZR k)) by (apply IZR_le; lia). apply sqrt_le_1_alt. rewrite <- mult_IZR. apply IZR_le. lia. }
  assert (U : (sqrt (IZR n) <= IZR k + 1 - 1 / 131072)%R).
  { assert (Q : (sqrt (IZR n) * sqrt (IZR n) = IZR n)%R) by (apply sqrt_sqrt; exact P).
    assert (N2 : (IZR n <= (IZR k + 1) * (IZR k + 1) - 1)%R).
    { rewrite <- plus_IZR, <- mult_IZR, <- minus_IZR. apply IZR_le. lia. }
    assert (KR : (0 <= IZR k <= 65535)%R) by (split; apply IZR_le; lia).
    destruct (Rle_lt_dec (sqrt (IZR n)) (IZR k + 1 - 1 / 131072)) as [G|G]; [exact G|exfalso].
    assert (W : (sqrt (IZR n) * sqrt (IZR n) > (IZR k + 1 - 1 / 131072) * (IZR k + 1 - 1 / 131072))%R) by nra. nra. }
  assert (GK : gen (IZR k)).
  { destruct (ofZ_R k) as [_ E]; [change (2 ^ 53) with 9007199254740992; lia|]. rewrite <- E. apply gen_B2R. }
  assert (L2 : (IZR k <= rnd (sqrt (IZR n)))%R) by (apply rnd_ge_gen; auto).
  assert (U2 : (rnd (sqrt (IZR n)) < IZR k + 1)%R).
  { pose proof (rnd_err (sqrt (IZR n))) as E. apply Rabs_le_inv in E. assert (KR : (0 <= IZR k <= 65535)%R) by (split; apply IZR_le; lia).
    rewrite (Rabs_pos_eq (sqrt (IZR n))) in E by lra. assert (ES : (eta <= / 1073741824)%R) by (apply (eta_le (-30)); lia).
    assert (uro * sqrt (IZR n) <= 1 / 1000000)%R by (unfold uro; lra). lra. }
  assert (KR : (0 <= IZR k)%R) by (apply IZR_le; lia).
  split; [|unfold int_range; lia]. rewrite Ztrunc_floor by lra. apply Zfloor_imp. rewrite plus_IZR. lra.
Qed.
Theorem C107_int_length : forall a : vec3 Z, s_vle 26754 a -> vlength (s_iv a) = IVal (Z.sqrt (s_zdot a a)).
Proof.
  intros a A. change (vlength (s_iv a)) with (nsqrt (vdot (s_iv a) (s_iv a))). rewrite dot_def by auto. cbn [nsqrt NumI iun].
  rewrite isqrt_spec; [reflexivity|]. destruct a as [x y z], A as [X [Y Z]]. unfold s_zdot. cbn [vx vy vz] in *.
  pq x x X X. pq y y Y Y. pq z z Z Z. nia.
Qed.
(** normalising truncates: every component becomes -1, 0 or 1, and the zero vector is divided by zero *)
Theorem C107_int_normalized : forall a : vec3 Z, s_vle 26754 a ->
  (a <> V3 0 0 0 -> vnormalized (s_iv a) = s_iv (V3 (Z.quot (vx a) (Z.sqrt (s_zdot a a))) (Z.quot (vy a) (Z.sqrt (s_zdot a a))) (Z.quot (vz a) (Z.sqrt (s_zdot a a)))) /\
    s_vle 1 (V3 (Z.quot (vx a) (Z.sqrt (s_zdot a a))) (Z.quot (vy a) (Z.sqrt (s_zdot a a))) (Z.quot (vz a) (Z.sqrt (s_zdot a a))))) /\
  (a = V3 0 0 0 -> vnormalized (s_iv a) = V3 IUndef IUndef IUndef).
Proof.
  intros a A. unfold vnormalized. rewrite (C107_int_length a A). split.
  - intros NZ. destruct a as [x y z]. set (n := s_zdot (V3 x y z) (V3 x y z)). unfold s_iv. cbn [vx vy vz].
    assert (NP : 0 < n).
    { unfold n, s_zdot. cbn [vx vy vz]. destruct (Z.eq_dec x 0), (Z.eq_dec y 0), (Z.eq_dec z 0); try nia. subst. exfalso. apply NZ. reflexivity. }
    pose proof (Z.sqrt_pos n) as SP. assert (S0 : 0 < Z.sqrt n) by (apply SP; exact NP).
    assert (B : Z.abs x <= Z.sqrt n /\ Z.abs y <= Z.sqrt n /\ Z.abs z <= Z.sqrt n).
    { assert (W : forall w, w * w <= n -> Z.abs w <= Z.sqrt n).
      { intros w W. apply Z.sqrt_le_square; [lia|lia|]. rewrite <- Z.abs_square in W. exact W. }
      unfold n, s_zdot in *. cbn [vx vy vz] in *. split; [|split]; apply W; nia. }
    assert (Q : forall w, Z.abs w <= Z.sqrt n -> Z.abs (Z.quot w (Z.sqrt n)) <= 1).
    { intros w W. rewrite <- Z.quot_abs by lia. rewrite (Z.abs_eq (Z.sqrt n)) by lia. rewrite Z.quot_div_nonneg by lia. apply Z.lt_succ_r. apply Z.div_lt_upper_bound; nia. }
    destruct B as [B1 [B2 B3]]. pose proof (Q x B1) as Q1. pose proof (Q y B2) as Q2. pose proof (Q z B3) as Q3.
    split; [|split; [|split]; assumption]. cbn [ndiv NumI iop]. replace (Z.eqb (Z.sqrt n) 0) with false by (symmetry; apply Z.eqb_neq; lia).
    rewrite !ick_in by lia. reflexivity.
  - intros ->. reflexivity.
Qed.

(** ** unsigned int: everything is exact modulo 2^32 *)
Lemma uw_add : forall x y, nadd (s_uw x) (s_uw y) = s_uw (x + y).
Proof. intros x y. unfold s_uw. cbn [nadd NumU uop]. unfold uck. change (2 ^ 32) with 4294967296. rewrite <- Zplus_mod. reflexivity. Qed.
Lemma uw_sub : forall x y, nsub (s_uw x) (s_uw y) = s_uw (x - y).
Proof. intros x y. unfold s_uw. cbn [nsub NumU uop]. unfold uck. change (2 ^ 32) with 4294967296. rewrite <- Zminus_mod. reflexivity. Qed.
Lemma uw_mul : forall x y, nmul (s_uw x) (s_uw y) = s_uw (x * y).
Proof. intros x y. unfold s_uw. cbn [nmul NumU uop]. unfold uck. change (2 ^ 32) with 4294967296. rewrite <- Zmult_mod. reflexivity. Qed.
Lemma uw_opp : forall x, nopp (s_uw x) = s_uw (- x).
Proof.
  intros x. unfold s_uw. cbn [nopp NumU uun]. unfold uck. change (2 ^ 32) with 4294967296. f_equal.
  replace (- (x mod 4294967296)) with (0 - x mod 4294967296) by ring. rewrite Zminus_mod_idemp_r. f_equal.
Qed.
Lemma u_dot : forall a b, vdot (s_uv a) (s_uv b) = s_uw (s_zdot a b).
Proof. intros a b. unfold vdot, s_uv, s_zdot. cbn [vx vy vz]. rewrite !uw_mul, !uw_add. reflexivity. Qed.
Lemma u_mulv : forall m a, m3mulv (s_um m) (s_uv a) = s_uv (s_zmulv m a).
Proof. intros m a. apply (f_equal3 V3); [apply (u_dot (s_zrow m 0))|apply (u_dot (s_zrow m 1))|apply (u_dot (s_zrow m 2))]. Qed.
Lemma u_mul : forall m n, m3mul (s_um m) (s_um n) = s_um (s_zmul m n).
Proof.
  intros m n. unfold s_zmul, s_um, m3mul. cbn [mxx mxy mxz myx myy myz mzx mzy mzz]. rewrite !uw_mul, !uw_add. reflexivity.
Qed.
Lemma u_add : forall a b, vadd (s_uv a) (s_uv b) = s_uv (s_zplus a b).
Proof. intros a b. unfold vadd, s_uv, s_zplus. cbn [vx vy vz]. rewrite !uw_add. reflexivity. Qed.
Lemma u_apply : forall t a, tapply (s_ut t) (s_uv a) = s_uv (s_zapply t a).
Proof. intros t a. unfold tapply, s_zapply, s_ut. cbn [tR MathTypes.tt]. rewrite u_mulv, u_add. reflexivity. Qed.
Lemma u_inv : forall t, tinverse (s_ut t) = s_ut (zinv t).
Proof.
  intros t. unfold tinverse, zinv, s_ut. cbn [tR MathTypes.tt]. change (m3transpose (s_um (tR t))) with (s_um (m3transpose (tR t))). f_equal.
  rewrite <- u_mulv. f_equal. unfold vopp, s_uv. cbn [vx vy vz]. rewrite !uw_opp. reflexivity.
Qed.
Theorem C107_unsigned : forall (a b : vec3 Z) (m n : mat3 Z) (t : trans3 Z),
  vdot (s_uv a) (s_uv b) = s_uw (s_zdot a b) /\ vcross (s_uv a) (s_uv b) = s_uv (s_zcross a b) /\
  vlength (s_uv a) = s_uw (Z.sqrt (s_zdot a a mod 2 ^ 32)) /\
  m3mulv (s_um m) (s_uv a) = s_uv (s_zmulv m a) /\ m3mul (s_um m) (s_um n) = s_um (s_zmul m n) /\ tapply (s_ut t) (s_uv a) = s_uv (s_zapply t a).
Proof.
  intros a b m n t. split; [apply u_dot|]. split; [|split; [|split; [apply u_mulv|split; [apply u_mul|apply u_apply]]]].
  - unfold vcross, s_uv, s_zcross. cbn [vx vy vz]. rewrite !uw_mul, !uw_sub. reflexivity.
  - change (vlength (s_uv a)) with (nsqrt (vdot (s_uv a) (s_uv a))). rewrite u_dot. unfold s_uw. cbn [nsqrt NumU uun].
    set (q := s_zdot a a mod 2 ^ 32). assert (B : 0 <= q < 4294967296) by (apply (Z.mod_pos_bound (s_zdot a a) 4294967296); lia).
    rewrite isqrt_spec by exact B. f_equal. symmetry. apply Z.mod_small. change (2 ^ 32) with 4294967296.
    split; [apply Z.sqrt_nonneg|]. destruct (Z.sqrt_spec q ltac:(lia)) as [S _]. pose proof (Z.sqrt_nonneg q). nia.
Qed.
(** composing unsigned transforms never fails, and signed permutations (entries -1 = 4294967295) are inverted for all vectors *)
Theorem C107_unsigned_transform : forall (A B : trans3 Z) (v : vec3 Z),
  tapply (tmul (s_ut A) (s_ut B)) (s_uv v) = tapply (s_ut A) (tapply (s_ut B) (s_uv v)) /\
  (s_zrot (tR A) -> tapply (tinverse (s_ut A)) (tapply (s_ut A) (s_uv v)) = s_uv v).
Proof.
  intros A B v. split.
  - rewrite !u_apply. assert (E : tmul (s_ut A) (s_ut B) = s_ut (T3 (s_zmul (tR A) (tR B)) (s_zapply A (MathTypes.tt B)))).
    { unfold tmul. change (tR (s_ut A)) with (s_um (tR A)). change (tR (s_ut B)) with (s_um (tR B)). rewrite u_mul. unfold s_ut at 3. cbn [tR MathTypes.tt].
      f_equal. apply (u_apply A (MathTypes.tt B)). }
    rewrite E, u_apply. f_equal. destruct A as [[a0 a1 a2 a3 a4 a5 a6 a7 a8] [tx ty tz]], B as [[b0 b1 b2 b3 b4 b5 b6 b7 b8] [sx sy sz]], v as [x y z].
    unfold s_zapply, s_zplus, s_zmulv, s_zmul, s_zdot, s_zrow, s_zcol. cbn [vx vy vz mxx mxy mxz myx myy myz mzx mzy mzz tR MathTypes.tt]. f_equal; ring.
  - intros R. rewrite u_apply, u_inv, u_apply, zinv_apply by exact R. reflexivity.
Qed.
(** and these are all the unsigned vectors *)
Theorem C107_unsigned_all : forall x y z, 0 <= x < 2 ^ 32 -> 0 <= y < 2 ^ 32 -> 0 <= z < 2 ^ 32 -> V3 (UVal x) (UVal y) (UVal z) = s_uv (V3 x y z).
Proof. intros x y z X Y Z. unfold s_uv, s_uw. cbn [vx vy vz]. rewrite !Z.mod_small by assumption. reflexivity. Qed.

(** ** constructors *)
(** Transform2T() maps everything to the origin; it is not the identity and not invertible *)
Theorem C107_default2 : forall v : vec2 R, t2apply t2_default v = V2 0%R 0%R /\ (forall T : trans2 R, t2mul T t2_default = T2 m2_default (t2t T)).
Proof.
  intros [x y]. split.
  - unfold t2apply, t2_default, m2_default, v2_default, m2mulv, v2add. cbn [t2R t2t m2xx m2xy m2yx m2yy v2x v2y]. cbn [nadd nmul n0 nofZ NumR]. f_equal; ring.
  - intros [[a b c d] [p q]]. unfold t2mul, t2_default, m2_default, v2_default, m2mul, m2mulv, v2add. cbn [t2R t2t m2xx m2xy m2yx m2yy v2x v2y]. cbn [nadd nmul n0 nofZ NumR]. f_equal; f_equal; ring.
Qed.
Definition s_cells {T} (v : vec3 T) : vec3 (cell T) := V3 (Val (vx v)) (Val (vy v)) (Val (vz v)).
(** Transform3T() has a rotation that was never written: only the origin is defined, and everything computed with the rotation is indeterminate *)
Theorem C107_default3 : forall (T : Type) (NT : Num T) (v : vec3 T) (A : trans3 (cell T)),
  MathTypes.tt (t3_default (T := T)) = s_cells (V3 n0 n0 n0) /\
  tapply t3_default (s_cells v) = V3 Uninit Uninit Uninit /\
  tR (tmul A t3_default) = m3_default /\ tR (tmul t3_default A) = m3_default /\ tinverse (t3_default (T := T)) = T3 m3_default (V3 Uninit Uninit Uninit).
Proof.
  intros T NT [x y z] [[a b c d e f g h i] t]. split; [reflexivity|]. split; [reflexivity|]. split; [|split; [|reflexivity]].
  - destruct a, b, c, d, e, f, g, h, i; reflexivity.
  - reflexivity.
Qed.
(** a component is defined iff it was written: assigning a rotation makes the transform usable *)
Theorem C107_default3_set : forall (T : Type) (NT : Num T) (t : trans3 T) (v : vec3 T),
  let r := tR t in
  let cells := M3 (Val (mxx r)) (Val (mxy r)) (Val (mxz r)) (Val (myx r)) (Val (myy r)) (Val (myz r)) (Val (mzx r)) (Val (mzy r)) (Val (mzz r)) in
  tapply (T3 cells (s_cells (MathTypes.tt t))) (s_cells v) = s_cells (tapply t v).
Proof. intros T NT [[a b c d e f g h i] [p q s]] [x y z]. reflexivity. Qed.
(** the constructors from one value: a vector or matrix with all components equal (so Vec3(1) is not a unit vector and Mat3(1) not the identity) *)
Theorem C107_fill : forall (T : Type) (NT : Num T) (x : T) (i j : nat), (i < 3)%nat -> (j < 9)%nat ->
  vget (v3_fill x) i = x /\ m3get (m3_fill x) j = x /\ v2_fill x = V2 x x /\ m2_fill x = M2 x x x x.
Proof. intros T NT x [|[|[|i]]] j I J; try lia; (split; [reflexivity|]; split; [|split; reflexivity]); destruct j as [|[|[|[|[|[|[|[|[|j]]]]]]]]]; try lia; reflexivity. Qed.
(** the constructors from an array copy the first elements in order, and need the array to be that long *)
Theorem C107_array : forall (T : Type) (NT : Num T) (l : list T),
  (v2_array l <> UB <-> (2 <= length l)%nat) /\ (v3_array l <> UB <-> (3 <= length l)%nat) /\ (m3_array l <> UB <-> (9 <= length l)%nat) /\
  (forall v, v3_array l = Ret v -> forall i, (i < 3)%nat -> nth_error l i = Some (vget v i)) /\
  (forall v, v2_array l = Ret v -> nth_error l 0 = Some (v2x v) /\ nth_error l 1 = Some (v2y v)) /\
  (forall m, m3_array l = Ret m -> forall i j, (i < 3)%nat -> (j < 3)%nat -> nth_error l (3 * i + j) = Some (vget (m3row m i) j)).
Proof.
  intros T NT l. unfold v2_array, v3_array, m3_array, arr, or_ub.
  split; [|split; [|split; [|split; [|split]]]].
  - destruct l as [|x0 [|x1 l]]; cbn; split; intros H; try lia; try discriminate; congruence.
  - destruct l as [|x0 [|x1 [|x2 l]]]; cbn; split; intros H; try lia; try discriminate; congruence.
  - destruct l as [|x0 [|x1 [|x2 [|x3 [|x4 [|x5 [|x6 [|x7 [|x8 l]]]]]]]]]; cbn; split; intros H; try lia; try discriminate; congruence.
  - intros v H i I. destruct l as [|x0 [|x1 [|x2 l]]]; cbn in H; try discriminate H. injection H as <-. destruct i as [|[|[|i]]]; try lia; reflexivity.
  - intros v H. destruct l as [|x0 [|x1 l]]; cbn in H; try discriminate H. injection H as <-. split; reflexivity.
  - intros m H i j I J. destruct l as [|x0 [|x1 [|x2 [|x3 [|x4 [|x5 [|x6 [|x7 [|x8 l]]]]]]]]]; cbn in H; try discriminate H. injection H as <-.
    destruct i as [|[|[|i]]]; try lia; destruct j as [|[|[|j]]]; try lia; reflexivity.
Qed.

(** ** the hypotheses can be met *)
Example C107_rot_example : s_zrot (M3 0 (-1) 0 1 0 0 0 0 1).
Proof. intros i j I J. destruct i as [|[|[|i]]]; try lia; destruct j as [|[|[|j]]]; try lia; reflexivity. Qed.
Example C107_exact_example : vdot (s_iv (V3 46340 0 0)) (s_iv (V3 46340 1 2)) = IVal 2147395600 /\ vdot (s_iv (V3 46341 0 0)) (s_iv (V3 46341 0 0)) = IUndef.
Proof. split; reflexivity. Qed.
Example C107_length_example : vlength (s_iv (V3 1 1 1)) = IVal 1 /\ vnormalized (s_iv (V3 3 4 0)) = s_iv (V3 0 0 0).
Proof. split; vm_compute; reflexivity. Qed.
Example C107_unsigned_example : vdot (s_uv (V3 65536 0 0)) (s_uv (V3 65536 0 5)) = UVal 0 /\ vlength (s_uv (V3 (-3) 4 0)) = UVal 5.
Proof. split; vm_compute; reflexivity. Qed.

Print Assumptions C107_int_exact.
Print Assumptions C107_int_compose.
Print Assumptions C107_int_bound.
Print Assumptions C107_int_bound_sharp.
Print Assumptions C107_int_inverse.
Print Assumptions C107_int_length.
Print Assumptions C107_int_normalized.
Print Assumptions C107_unsigned.
Print Assumptions C107_unsigned_transform.
Print Assumptions C107_unsigned_all.
Print Assumptions C107_default2.
Print Assumptions C107_default3.
Print Assumptions C107_default3_set.
Print Assumptions C107_fill.
Print Assumptions C107_array.
