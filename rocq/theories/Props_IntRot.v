(** * C112: rotations of the integer matrices and transforms *)
From Coq Require Import ZArith List Bool Lia Reals Lra.
From Flocq Require Import Core BinarySingleNaN.
From Verif Require Import Num MathTypes Operators Outcome IntTypes Libm IntRot SpecRound SpecLibm P_Round P_OctF P_KeyF P_InsideF P_MeshGeo Props_Int Props_Libm.
Import ListNotations.
Local Notation fin := (is_finite (prec := 53) (emax := 1024)).
Local Open Scope Z_scope.

(** ** specification *)
Definition s_iq (q : quat Z) : quat cint := Q (IVal (qx q)) (IVal (qy q)) (IVal (qz q)) (IVal (qw q)).
Definition s_qn (q : quat Z) : Z := qx q * qx q + qy q * qy q + qz q * qz q + qw q * qw q.
(** the rotation matrix of a quaternion, times its squared norm *)
Definition s_qmat (q : quat Z) : mat3 Z :=
  let x := qx q in let y := qy q in let z := qz q in let w := qw q in
  M3 (w * w + x * x - y * y - z * z) (2 * (x * y - w * z)) (2 * (x * z + w * y))
     (2 * (x * y + w * z)) (w * w - x * x + y * y - z * z) (2 * (y * z - w * x))
     (2 * (x * z - w * y)) (2 * (y * z + w * x)) (w * w - x * x - y * y + z * z).
Definition s_ztimes (k : Z) (m : mat3 Z) : mat3 Z :=
  M3 (k * mxx m) (k * mxy m) (k * mxz m) (k * myx m) (k * myy m) (k * myz m) (k * mzx m) (k * mzy m) (k * mzz m).
Definition s_zid : mat3 Z := M3 1 0 0 0 1 0 0 0 1.
Definition s_zdet (m : mat3 Z) : Z := s_zdot (s_zrow m 0) (s_zcross (s_zrow m 1) (s_zrow m 2)).
Definition s_ztr (m : mat3 Z) : Z := mxx m + myy m + mzz m.
Definition s_zdiag (m : mat3 Z) : Prop := mxy m = 0 /\ mxz m = 0 /\ myx m = 0 /\ myz m = 0 /\ mzx m = 0 /\ mzy m = 0.
Definition s_undef_m : mat3 cint := M3 IUndef IUndef IUndef IUndef IUndef IUndef IUndef IUndef IUndef.
(** at most one component differs from zero *)
Definition s_axis (q : quat Z) : Prop :=
  exists k, q = Q 0 0 0 k \/ q = Q k 0 0 0 \/ q = Q 0 k 0 0 \/ q = Q 0 0 k 0.

(** ** 0.5 / s *)
Lemma half_pos : forall z, 1 <= z <= 2147483647 -> half_over z = Some 0.
Proof.
  intros z Z1. unfold half_over. apply toint_F.
  assert (HF : fin (nlit 5 10 : F64) = true) by (vm_compute; reflexivity).
  assert (HV : B2R (nlit 5 10 : F64) = (1 / 2)%R).
  { rewrite <- (SF2R_B2SF _ _ (nlit 5 10 : F64)). assert (E : B2SF (nlit 5 10 : F64) = SpecFloat.S754_finite false 4503599627370496 (-53)) by (vm_compute; reflexivity). rewrite E. unfold SF2R, F2R. cbn. lra. }
  set (h := nlit 5 10 : F64) in *. clearbody h.
  destruct (ofZ_R z) as [F V]; [change (2 ^ 53) with 9007199254740992; lia|].
  assert (ZR : (1 <= IZR z)%R) by (apply IZR_le; lia).
  assert (Q : (0 <= 1 / 2 / IZR z <= 1 / 2)%R).
  { split; [apply Rmult_le_pos; [lra|apply Rlt_le, Rinv_0_lt_compat; lra]|]. apply Rmult_le_reg_r with (IZR z); [lra|]. unfold Rdiv at 1. rewrite Rmult_assoc, Rinv_l by lra. lra. }
  destruct (div_R h (nofZ z) HF) as [F2 V2].
  - rewrite V. lra.
  - rewrite HV, V, Rabs_pos_eq by lra. apply Rle_trans with 1%R; [lra|]. unfold big. apply (bpow_le radix2 0). lia.
  - split; [exact F2|]. rewrite V2, HV, V. pose proof (rnd_err (1 / 2 / IZR z)) as E. rewrite (Rabs_pos_eq (1 / 2 / IZR z)) in E by lra.
    assert (ES : (eta <= / 1073741824)%R) by (apply (eta_le (-30)); lia).
    assert (uro * (1 / 2 / IZR z) <= 1 / 1000000)%R by (unfold uro in *; lra).
    apply Rabs_le_inv in E. split; [|unfold int_range; lia].
    set (r := rnd (1 / 2 / IZR z)) in *. destruct (Rle_lt_dec 0 r) as [P|P].
    + rewrite Ztrunc_floor by exact P. apply Zfloor_imp. cbn. lra.
    + rewrite Ztrunc_ceil by lra. apply Zceil_imp. cbn. lra.
Qed.
Lemma half_zero : half_over 0 = None.
Proof. vm_compute. reflexivity. Qed.

(** ** getRotation *)
Lemma sqrt_small : forall n, 1 <= n < 4294967296 -> 1 <= Z.sqrt n <= 65535.
Proof. intros n N. destruct (Z.sqrt_spec n ltac:(lia)) as [S1 S2]. pose proof (Z.sqrt_nonneg n). nia. Qed.
Lemma quot2 : forall n, 0 <= n <= 65535 -> ick (Z.quot n 2) = IVal (n / 2).
Proof. intros n N. rewrite Z.quot_div_nonneg by lia. apply ick_in. pose proof (Z.div_le_upper_bound n 2 65535). pose proof (Z.div_pos n 2). lia. Qed.

Ltac stp := cbn [nadd nsub nmul nopp ndiv nsqrt NumI iop iun n0 n1 n2 nofZ idef andb negb qset qx qy qz qw m3get Nat.mul Nat.add icmp nltb];
  rewrite ?ick_in by lia.
Lemma get_pos : forall m q0, s_mle 500000000 m -> 0 < s_ztr m -> i_getRotation (s_im m) q0 = Ret (s_iq (Q 0 0 0 (Z.sqrt (s_ztr m + 1) / 2))).
Proof.
  intros [a b c d e f g h i] [x y z w] M P.
  unfold s_mle, s_vle, s_zrow, s_ztr in *. cbn [vx vy vz mxx mxy mxz myx myy myz mzx mzy mzz] in *.
  unfold i_getRotation, getRotationG, s_im, s_iq. cbn [mxx mxy mxz myx myy myz mzx mzy mzz].
  do 6 stp. replace (Z.ltb 0 (a + e + i)) with true by (symmetry; apply Z.ltb_lt; lia).
  rewrite isqrt_spec by lia. pose proof (sqrt_small (a + e + i + 1) ltac:(lia)) as S. stp. change (Z.eqb 2 0) with false. cbn iota.
  rewrite quot2 by lia. unfold ihalf. cbn [iun]. rewrite half_pos by lia. stp. rewrite !Z.mul_0_r. reflexivity.
Qed.
(** the other branch *)
Definition s_big (m : mat3 Z) : nat := if Z.ltb (mxx m) (myy m) then (if Z.ltb (myy m) (mzz m) then 2%nat else 1%nat) else (if Z.ltb (mxx m) (mzz m) then 2%nat else 0%nat).
Definition s_axq (i : nat) (k : Z) : quat Z := match i with O => Q k 0 0 0 | S O => Q 0 k 0 0 | _ => Q 0 0 k 0 end.
Lemma get_neg : forall m q0, s_mle 500000000 m -> s_ztr m <= 0 ->
  let i := s_big m in let a := vget (V3 (mxx m) (myy m) (mzz m)) i in
  1 <= 2 * a - s_ztr m + 1 /\
  i_getRotation (s_im m) q0 = Ret (s_iq (s_axq i (Z.sqrt (2 * a - s_ztr m + 1) / 2))).
Proof.
  intros [a b c d e f g h i] [x y z w] M P.
  unfold s_big, s_mle, s_vle, s_zrow, s_ztr in *. cbn [vx vy vz mxx mxy mxz myx myy myz mzx mzy mzz] in *.
  unfold i_getRotation, getRotationG, s_im, s_iq. cbn [mxx mxy mxz myx myy myz mzx mzy mzz].
  do 6 stp. replace (Z.ltb 0 (a + e + i)) with false by (symmetry; apply Z.ltb_ge; lia).
  destruct (Z.ltb_spec a e); [destruct (Z.ltb_spec e i)|destruct (Z.ltb_spec a i)]; cbn [vget vx vy vz s_axq]; (split; [lia|]);
    change ((2 + 1) mod 3)%nat with 0%nat; change ((2 + 2) mod 3)%nat with 1%nat; change ((1 + 1) mod 3)%nat with 2%nat; change ((1 + 2) mod 3)%nat with 0%nat;
    change ((0 + 1) mod 3)%nat with 1%nat; change ((0 + 2) mod 3)%nat with 2%nat; cbn [Nat.mul Nat.add m3get mxx mxy mxz myx myy myz mzx mzy mzz]; do 4 stp.
  - replace (2 * i - (a + e + i) + 1) with (i - a - e + 1) by ring. rewrite isqrt_spec by lia. pose proof (sqrt_small (i - a - e + 1) ltac:(lia)) as S. stp. change (Z.eqb 2 0) with false. cbn iota.
    rewrite quot2 by lia. unfold ihalf. cbn [iun]. rewrite half_pos by lia. stp. rewrite !Z.mul_0_r. reflexivity.
  - replace (2 * e - (a + e + i) + 1) with (e - i - a + 1) by ring. rewrite isqrt_spec by lia. pose proof (sqrt_small (e - i - a + 1) ltac:(lia)) as S. stp. change (Z.eqb 2 0) with false. cbn iota.
    rewrite quot2 by lia. unfold ihalf. cbn [iun]. rewrite half_pos by lia. stp. rewrite !Z.mul_0_r. reflexivity.
  - replace (2 * i - (a + e + i) + 1) with (i - a - e + 1) by ring. rewrite isqrt_spec by lia. pose proof (sqrt_small (i - a - e + 1) ltac:(lia)) as S. stp. change (Z.eqb 2 0) with false. cbn iota.
    rewrite quot2 by lia. unfold ihalf. cbn [iun]. rewrite half_pos by lia. stp. rewrite !Z.mul_0_r. reflexivity.
  - replace (2 * a - (a + e + i) + 1) with (a - e - i + 1) by ring. rewrite isqrt_spec by lia. pose proof (sqrt_small (a - e - i + 1) ltac:(lia)) as S. stp. change (Z.eqb 2 0) with false. cbn iota.
    rewrite quot2 by lia. unfold ihalf. cbn [iun]. rewrite half_pos by lia. stp. rewrite !Z.mul_0_r. reflexivity.
Qed.
(** the quaternion of an int matrix: the fractions 0.5 / s are truncated to 0, so only one component can survive; nothing is undefined *)
Theorem C112_get : forall (m : mat3 Z) (q0 : quat cint), s_mle 500000000 m ->
  (0 < s_ztr m -> i_getRotation (s_im m) q0 = Ret (s_iq (Q 0 0 0 (Z.sqrt (s_ztr m + 1) / 2)))) /\
  (s_ztr m <= 0 -> exists i, (i < 3)%nat /\ (forall j, (j < 3)%nat -> vget (V3 (mxx m) (myy m) (mzz m)) j <= vget (V3 (mxx m) (myy m) (mzz m)) i) /\
     i_getRotation (s_im m) q0 = Ret (s_iq (s_axq i (Z.sqrt (2 * vget (V3 (mxx m) (myy m) (mzz m)) i - s_ztr m + 1) / 2)))).
Proof.
  intros m q0 M. split; [apply get_pos; exact M|]. intros P. destruct (get_neg m q0 M P) as [D E]. exists (s_big m). split; [|split; [|exact E]].
  - unfold s_big. repeat match goal with |- context [if ?b then _ else _] => destruct b end; lia.
  - intros j J. unfold s_big. destruct (Z.ltb_spec (mxx m) (myy m)); [destruct (Z.ltb_spec (myy m) (mzz m))|destruct (Z.ltb_spec (mxx m) (mzz m))];
      destruct j as [|[|[|j]]]; cbn [vget vx vy vz]; lia.
Qed.
Theorem C112_get_axis : forall (m : mat3 Z) (q0 : quat cint), s_mle 500000000 m -> exists q, i_getRotation (s_im m) q0 = Ret (s_iq q) /\ s_axis q.
Proof.
  intros m q0 M. destruct (C112_get m q0 M) as [A B]. destruct (Z_lt_le_dec 0 (s_ztr m)) as [P|P].
  - eexists. split; [exact (A P)|]. eexists. left. reflexivity.
  - destruct (B P) as [i [I [_ E]]]. eexists. split; [exact E|]. destruct i as [|[|[|i]]]; [| | |lia]; eexists; cbn [s_axq]; auto.
Qed.

(** ** setRotation from an int quaternion: 2 / d is an integer division *)
Lemma iq_norm : forall q, Z.abs (qx q) <= 10000 -> Z.abs (qy q) <= 10000 -> Z.abs (qz q) <= 10000 -> Z.abs (qw q) <= 10000 -> qlength2 (s_iq q) = IVal (s_qn q) /\ 0 <= s_qn q <= 400000000.
Proof.
  intros [x y z w] X Y Z W. unfold qlength2, s_iq, s_qn. cbn [qx qy qz qw] in *.
  pose proof (sq_le 10000 x x ltac:(lia) X X). pose proof (sq_le 10000 y y ltac:(lia) Y Y). pose proof (sq_le 10000 z z ltac:(lia) Z Z). pose proof (sq_le 10000 w w ltac:(lia) W W).
  pose proof (Z.square_nonneg x). pose proof (Z.square_nonneg y). pose proof (Z.square_nonneg z). pose proof (Z.square_nonneg w).
  set (x2 := x * x) in *. set (y2 := y * y) in *. set (z2 := z * z) in *. set (w2 := w * w) in *.
  cbn [nadd nmul NumI iop]. fold x2 y2 z2 w2. do 4 (rewrite ?ick_in by lia; cbn [iop]). split; [reflexivity|lia].
Qed.
Lemma small_comp : forall x y z w, x * x + y * y + z * z + w * w <= 2 -> Z.abs x <= 1 /\ Z.abs y <= 1 /\ Z.abs z <= 1 /\ Z.abs w <= 1.
Proof. intros x y z w H. pose proof (Z.square_nonneg x). pose proof (Z.square_nonneg y). pose proof (Z.square_nonneg z). pose proof (Z.square_nonneg w). repeat split; nia. Qed.
Definition tri : list Z := [-1; 0; 1].
Lemma in_tri : forall x, Z.abs x <= 1 -> In x tri.
Proof. intros x X. assert (x = -1 \/ x = 0 \/ x = 1) as [ -> |[ -> | -> ]] by lia; cbn; auto. Qed.
Theorem C112_set : forall q : quat Z, Z.abs (qx q) <= 10000 -> Z.abs (qy q) <= 10000 -> Z.abs (qz q) <= 10000 -> Z.abs (qw q) <= 10000 ->
  (s_qn q = 0 -> m3setRotation (s_iq q) = s_undef_m) /\
  (s_qn q = 1 \/ s_qn q = 2 -> exists m, m3setRotation (s_iq q) = s_im m /\ s_ztimes (s_qn q) m = s_qmat q) /\
  (3 <= s_qn q -> m3setRotation (s_iq q) = s_im s_zid).
Proof.
  intros q X Y Z W. destruct (iq_norm q X Y Z W) as [N B]. destruct q as [x y z w]. cbn [qx qy qz qw] in *. split; [|split].
  - intros E. unfold m3setRotation. rewrite N, E. reflexivity.
  - intros E. assert (S : s_qn (Q x y z w) <= 2) by lia. unfold s_qn in S. cbn [qx qy qz qw] in S. apply small_comp in S as [A1 [A2 [A3 A4]]]. clear X Y Z W N B.
    assert (x = -1 \/ x = 0 \/ x = 1) as [ -> |[ -> | -> ]] by lia; assert (y = -1 \/ y = 0 \/ y = 1) as [ -> |[ -> | -> ]] by lia;
    assert (z = -1 \/ z = 0 \/ z = 1) as [ -> |[ -> | -> ]] by lia; assert (w = -1 \/ w = 0 \/ w = 1) as [ -> |[ -> | -> ]] by lia;
    try (exfalso; unfold s_qn in E; cbn [qx qy qz qw] in E; lia); clear;
    (match goal with |- exists m, ?e = _ /\ _ => let v := eval vm_compute in e in match v with
       M3 (IVal ?a) (IVal ?b) (IVal ?c) (IVal ?d) (IVal ?ee) (IVal ?f) (IVal ?g) (IVal ?h) (IVal ?i) => exists (M3 a b c d ee f g h i) end end; split; vm_compute; reflexivity).
  - intros E. unfold m3setRotation. rewrite N. cbn [ndiv NumI iop n2 nofZ]. rewrite (ick_in 2) by lia. cbn [iop].
    replace (Z.eqb (s_qn (Q x y z w)) 0) with false by (symmetry; apply Z.eqb_neq; lia). rewrite Z.quot_small by lia. rewrite (ick_in 0) by lia.
    unfold s_iq. cbn [qx qy qz qw]. cbn [nmul nadd nsub NumI iop]. rewrite !Z.mul_0_r. rewrite !(ick_in 0) by lia. cbn [iop]. rewrite !Z.mul_0_r. rewrite !(ick_in 0) by lia. reflexivity.
Qed.

(** ** quaternion round trip *)
Definition i_round (m : mat3 Z) : outcome (mat3 cint) := let* q := i_getQuaternion (T3 (s_im m) (V3 n0 n0 n0)) in Ret (m3setRotation q).
Definition ci_eqb (a b : cint) : bool := match a, b with IVal x, IVal y => Z.eqb x y | IUndef, IUndef => true | _, _ => false end.
Definition cm_eqb (a b : mat3 cint) : bool :=
  (ci_eqb (mxx a) (mxx b) && ci_eqb (mxy a) (mxy b) && ci_eqb (mxz a) (mxz b) && ci_eqb (myx a) (myx b) && ci_eqb (myy a) (myy b) && ci_eqb (myz a) (myz b) && ci_eqb (mzx a) (mzx b) && ci_eqb (mzy a) (mzy b) && ci_eqb (mzz a) (mzz b))%bool.
Lemma ci_ok : forall a b, ci_eqb a b = true -> a = b.
Proof. intros [x|] [y|] H; cbn in H; try discriminate; auto. apply Z.eqb_eq in H. subst. auto. Qed.
Lemma cm_ok : forall a b, cm_eqb a b = true -> a = b.
Proof. intros [a b c d e f g h i] [a' b' c' d' e' f' g' h' i'] H. unfold cm_eqb in H. cbn [mxx mxy mxz myx myy myz mzx mzy mzz] in H. rewrite !andb_true_iff in H. f_equal; apply ci_ok; tauto. Qed.
Definition col_ok (m : mat3 Z) : bool :=
  (Z.eqb (s_zdot (s_zcol m 0) (s_zcol m 0)) 1 && Z.eqb (s_zdot (s_zcol m 1) (s_zcol m 1)) 1 && Z.eqb (s_zdot (s_zcol m 2) (s_zcol m 2)) 1 &&
   Z.eqb (s_zdot (s_zcol m 0) (s_zcol m 1)) 0 && Z.eqb (s_zdot (s_zcol m 0) (s_zcol m 2)) 0 && Z.eqb (s_zdot (s_zcol m 1) (s_zcol m 2)) 0 && Z.eqb (s_zdet m) 1)%bool.
Definition diagb (m : mat3 Z) : bool := (Z.eqb (mxy m) 0 && Z.eqb (mxz m) 0 && Z.eqb (myx m) 0 && Z.eqb (myz m) 0 && Z.eqb (mzx m) 0 && Z.eqb (mzy m) 0)%bool.
Definition chk (m : mat3 Z) : bool :=
  if col_ok m then match i_round m with Ret r => cm_eqb r (if diagb m then s_im m else s_undef_m) | _ => false end else true.
Lemma all_chk : forallb (fun a => forallb (fun b => forallb (fun c => forallb (fun d => forallb (fun e => forallb (fun f => forallb (fun g => forallb (fun h => forallb (fun i =>
  chk (M3 a b c d e f g h i)) tri) tri) tri) tri) tri) tri) tri) tri) tri = true.
Proof. vm_compute. reflexivity. Qed.
(** of the integer rotations only the identity and the half turns about the axes survive getQuaternion followed by setRotation;
    for all the others (in particular all quarter turns) the quaternion is zero and setRotation divides by zero *)
Theorem C112_round_trip : forall m : mat3 Z, s_zrot m -> s_zdet m = 1 ->
  (s_zdiag m -> i_round m = Ret (s_im m)) /\ (~ s_zdiag m -> i_round m = Ret s_undef_m).
Proof.
  intros m H D. pose proof (zrot_entries m H) as M. assert (C : col_ok m = true).
  { unfold col_ok. rewrite D. rewrite (H 0 0)%nat, (H 1 1)%nat, (H 2 2)%nat, (H 0 1)%nat, (H 0 2)%nat, (H 1 2)%nat by lia. reflexivity. }
  destruct m as [a b c d e f g h i]. assert (K : chk (M3 a b c d e f g h i) = true).
  { unfold s_mle, s_vle, s_zrow in M. cbn [vx vy vz mxx mxy mxz myx myy myz mzx mzy mzz] in M. destruct M as [[Ma [Mb Mc]] [[Md [Me Mf]] [Mg [Mh Mi]]]].
    pose proof all_chk as A. rewrite forallb_forall in A. specialize (A a (in_tri a Ma)). cbv beta in A.
    rewrite forallb_forall in A. specialize (A b (in_tri b Mb)). cbv beta in A. rewrite forallb_forall in A. specialize (A c (in_tri c Mc)). cbv beta in A.
    rewrite forallb_forall in A. specialize (A d (in_tri d Md)). cbv beta in A. rewrite forallb_forall in A. specialize (A e (in_tri e Me)). cbv beta in A.
    rewrite forallb_forall in A. specialize (A f (in_tri f Mf)). cbv beta in A. rewrite forallb_forall in A. specialize (A g (in_tri g Mg)). cbv beta in A.
    rewrite forallb_forall in A. specialize (A h (in_tri h Mh)). cbv beta in A. rewrite forallb_forall in A. exact (A i (in_tri i Mi)). }
  unfold chk in K. rewrite C in K. destruct (i_round (M3 a b c d e f g h i)) as [r| | |] eqn:E; try discriminate K. apply cm_ok in K. subst r.
  unfold diagb, s_zdiag. cbn [mxx mxy mxz myx myy myz mzx mzy mzz]. split.
  - intros [-> [-> [-> [-> [-> ->]]]]]. reflexivity.
  - intros N. destruct (Z.eqb_spec b 0), (Z.eqb_spec c 0), (Z.eqb_spec d 0), (Z.eqb_spec f 0), (Z.eqb_spec g 0), (Z.eqb_spec h 0); cbn [andb]; try reflexivity. exfalso. tauto.
Qed.
Example C112_round_trip_nonvacuous : s_zrot (M3 0 (-1) 0 1 0 0 0 0 1) /\ s_zdet (M3 0 (-1) 0 1 0 0 0 0 1) = 1 /\ ~ s_zdiag (M3 0 (-1) 0 1 0 0 0 0 1) /\
  s_zrot (M3 (-1) 0 0 0 (-1) 0 0 0 1) /\ s_zdet (M3 (-1) 0 0 0 (-1) 0 0 0 1) = 1 /\ s_zdiag (M3 (-1) 0 0 0 (-1) 0 0 0 1).
Proof.
  assert (A : forall m, col_ok m = true -> s_zrot m).
  { intros m C. unfold col_ok in C. rewrite !andb_true_iff, !Z.eqb_eq in C. destruct C as [[[[[[C0 C1] C2] C01] C02] C12] _].
    assert (SY : forall u v, s_zdot u v = s_zdot v u) by (intros u v; unfold s_zdot; ring).
    intros i j I J. destruct i as [|[|[|i]]], j as [|[|[|j]]]; try lia; cbn [Nat.eqb]; auto; rewrite SY; auto. }
  split; [apply A; reflexivity|]. split; [reflexivity|]. split; [intros [B _]; discriminate B|]. split; [apply A; reflexivity|]. split; [reflexivity|]. repeat split.
Qed.
(** a quarter turn is lost although setRotation alone can express it *)
Theorem C112_quarter_turn_lost : exists (m : mat3 Z) (q : quat Z), s_zrot m /\ s_zdet m = 1 /\ m3setRotation (s_iq q) = s_im m /\ i_round m = Ret s_undef_m.
Proof.
  exists (M3 0 (-1) 0 1 0 0 0 0 1), (Q 0 0 1 1). destruct C112_round_trip_nonvacuous as [A [B _]]. split; [exact A|]. split; [exact B|]. split; vm_compute; reflexivity.
Qed.

(** ** unsigned matrices *)
Theorem C112_get_unsigned : forall (m : mat3 Z) (q0 : quat cuint), 0 < s_ztr m mod 2 ^ 32 ->
  u_getRotation (s_um m) q0 = Ret (if Z.eqb (s_ztr m mod 2 ^ 32) (2 ^ 32 - 1) then Q UUndef UUndef UUndef (UVal 0)
                                   else Q (UVal 0) (UVal 0) (UVal 0) (UVal (Z.sqrt (s_ztr m mod 2 ^ 32 + 1) / 2))).
Proof.
  intros m [x y z w] P. unfold u_getRotation, getRotationG. 
  assert (TR : nadd (nadd (mxx (s_um m)) (myy (s_um m))) (mzz (s_um m)) = s_uw (s_ztr m)) by (unfold s_um; cbn [mxx myy mzz]; rewrite !uw_add; reflexivity).
  rewrite TR. change (negb (udef (s_uw (s_ztr m)) && udef (mxx (s_um m)) && udef (myy (s_um m)) && udef (mzz (s_um m)))%bool) with false. cbn iota.
  change (n0 : cuint) with (UVal 0). change (n1 : cuint) with (UVal 1). change (n2 : cuint) with (UVal 2). unfold s_uw at 1. cbn [nltb NumU ucmp].
  replace (Z.ltb 0 (s_ztr m mod 2 ^ 32)) with true by (symmetry; apply Z.ltb_lt; exact P).
  change (nadd (s_uw (s_ztr m)) (UVal 1)) with (uck (s_ztr m mod 2 ^ 32 + 1)). set (t := s_ztr m mod 2 ^ 32) in *.
  assert (TB : 0 <= t < 4294967296) by (apply (Z.mod_pos_bound (s_ztr m) 4294967296); lia). clearbody t. clear TR.
  change (2 ^ 32 - 1) with 4294967295.
  destruct m as [a b c d e f g h i]. unfold s_um. cbn [mxx mxy mxz myx myy myz mzx mzy mzz]. rewrite !uw_sub. unfold s_uw. cbn [qset qx qy qz qw].
  destruct (Z.eqb_spec t 4294967295) as [E|E].
  - rewrite E. change (uck (4294967295 + 1)) with (UVal 0). cbn [nsqrt NumU uun]. change (isqrt 0) with (isqrt 0). rewrite isqrt_spec by lia. change (Z.sqrt 0) with 0.
    cbn iota. unfold uhalf, uun. rewrite half_zero. reflexivity.
  - replace (uck (t + 1)) with (UVal (t + 1)) by (unfold uck; rewrite Z.mod_small by lia; reflexivity). cbn [nsqrt NumU uun]. rewrite isqrt_spec by lia. pose proof (sqrt_small (t + 1) ltac:(lia)) as S.
    unfold uhalf. cbn [uun]. rewrite half_pos by lia. cbn [ndiv nmul NumU uop]. change (Z.eqb 2 0) with false. cbn iota. rewrite !Z.mul_0_r. change (uck 0) with (UVal 0).
    rewrite Z.quot_div_nonneg by lia. unfold uck at 1. rewrite Z.mod_small; [reflexivity|]. pose proof (Z.div_le_upper_bound (Z.sqrt (t + 1)) 2 65535). pose proof (Z.div_pos (Z.sqrt (t + 1)) 2). lia.
Qed.

(** ** setRPY: sines and cosines are truncated *)
Definition s_ind (n : Z) : Z := if Z.eqb n 0 then 1 else 0.
Lemma toint_small : forall a : F64, fin a = true -> (Rabs (B2R a) < 1)%R -> toint a = Some 0.
Proof.
  intros a F A. apply toint_F. split; [exact F|]. split; [|unfold int_range; lia]. apply Rabs_lt_inv in A. destruct (Rle_lt_dec 0 (B2R a)).
  - rewrite Ztrunc_floor by lra. apply Zfloor_imp. cbn. lra.
  - rewrite Ztrunc_ceil by lra. apply Zceil_imp. cbn. lra.
Qed.
Lemma cos1_bounds : (5402 / 10000 <= cos 1 <= 5404 / 10000)%R.
Proof.
  assert (F0 : INR (fact (2 * 0)) = 1%R) by (rewrite INR_IZR_INZ; vm_compute Z.of_nat; reflexivity).
  assert (F2 : INR (fact (2 * 1)) = 2%R) by (rewrite INR_IZR_INZ; vm_compute Z.of_nat; reflexivity).
  assert (F4 : INR (fact (2 * 2)) = 24%R) by (rewrite INR_IZR_INZ; vm_compute Z.of_nat; reflexivity).
  assert (F6 : INR (fact (2 * 3)) = 720%R) by (rewrite INR_IZR_INZ; vm_compute Z.of_nat; reflexivity).
  assert (F8 : INR (fact (2 * 4)) = 40320%R) by (rewrite INR_IZR_INZ; vm_compute Z.of_nat; reflexivity).
  pose proof (pre_cos_bound 1 1 ltac:(lra) ltac:(lra)) as [A B]. unfold cos_approx in A, B. change (2 * 1 + 1)%nat with 3%nat in A. change (2 * (1 + 1))%nat with 4%nat in B.
  cbn [sum_f_R0] in A, B. unfold cos_term in A, B. rewrite F0, F2, F4, F6 in A. rewrite F0, F2, F4, F6, F8 in B. cbn [pow Nat.mul Nat.add] in A, B. split; lra.
Qed.
Lemma cos_int : forall n, 1 <= Z.abs n <= 3 -> (4 / 10 <= Rabs (cos (IZR n)) <= 995 / 1000)%R.
Proof.
  assert (C1 := cos1_bounds). assert (C2 : (-42 / 100 <= cos 2 <= -41 / 100)%R) by (replace 2%R with (2 * 1)%R by ring; rewrite cos_2a_cos; nra).
  assert (S1 : (sin 1 * sin 1 = 1 - cos 1 * cos 1)%R) by (pose proof (sin2_cos2 1) as H; unfold Rsqr in H; lra).
  assert (C3 : (-995 / 1000 <= cos 3 <= -9 / 10)%R).
  { assert (E : cos 3 = (4 * (cos 1 * cos 1 * cos 1) - 3 * cos 1)%R).
    { replace 3%R with (2 + 1)%R by ring. rewrite cos_plus. assert (E2 : cos 2 = (2 * cos 1 * cos 1 - 1)%R) by (rewrite <- cos_2a_cos; f_equal; ring). assert (E3 : sin 2 = (2 * sin 1 * cos 1)%R) by (rewrite <- sin_2a; f_equal; ring). rewrite E2, E3. replace (2 * sin 1 * cos 1 * sin 1)%R with (2 * cos 1 * (sin 1 * sin 1))%R by ring. rewrite S1. ring. }
    rewrite E. set (c := cos 1) in *. clearbody c. clear - C1. assert (c * c >= 291 / 1000)%R by nra. assert (c * c <= 293 / 1000)%R by nra.
    replace (4 * (c * c * c) - 3 * c)%R with (- (c * (3 - 4 * (c * c))))%R by ring. nra. }
  assert (P : forall n, 1 <= n <= 3 -> (4 / 10 <= Rabs (cos (IZR n)) <= 995 / 1000)%R).
  { intros n N. assert (n = 1 \/ n = 2 \/ n = 3) as [ -> |[ -> | -> ]] by lia; first [rewrite Rabs_pos_eq by lra|rewrite Rabs_left by lra]; lra. }
  intros n N. destruct (Z_lt_le_dec n 0); [|apply P; lia]. rewrite <- (cos_neg (IZR n)), <- opp_IZR. apply P. lia.
Qed.
Lemma sin_int : forall n, Z.abs n <= 3 -> (Rabs (sin (IZR n)) <= 95 / 100)%R.
Proof.
  intros n N. destruct (Z.eq_dec n 0) as [ -> |NZ]; [rewrite sin_0, Rabs_R0; lra|]. pose proof (cos_int n ltac:(lia)) as [C _]. pose proof (sin2_cos2 (IZR n)) as H. unfold Rsqr in H.
  set (s := sin (IZR n)) in *. set (k := cos (IZR n)) in *. clearbody s k. assert (KK : (k * k = Rabs k * Rabs k)%R) by (rewrite <- Rabs_mult, Rabs_pos_eq by nra; reflexivity).
  assert (SS : (s * s = Rabs s * Rabs s)%R) by (rewrite <- Rabs_mult, Rabs_pos_eq by nra; reflexivity). pose proof (Rabs_pos s). rewrite KK, SS in H. set (a := Rabs s) in *. set (b := Rabs k) in *. clearbody a b. clear - H H0 C. nra.
Qed.
Lemma cu_small : forall c, (0 <= c <= 1000000 -> 0 <= c * uro <= 1 / 1000)%R.
Proof. intros c C. unfold uro. lra. Qed.
Lemma tr_cos : forall c L n, s_libm c L -> (0 <= c <= 1000000)%R -> B2R (lm_cos L (nofZ 0)) = 1%R -> Z.abs n <= 3 -> tr1 (lm_cos L) (IVal n) = IVal (s_ind n).
Proof.
  intros c L n [_ [LC _]] C Z0 N. unfold tr1, iun, s_ind. destruct (ofZ_R n) as [F V]; [change (2 ^ 53) with 9007199254740992; lia|]. destruct (LC (nofZ n) F) as [FC E]. pose proof (cu_small c C) as CU.
  destruct (Z.eqb_spec n 0) as [ -> |NZ].
  - assert (T : toint (lm_cos L (nofZ 0)) = Some 1) by (apply toint_F; split; [exact FC|]; split; [rewrite Z0; apply (Ztrunc_IZR 1)|unfold int_range; lia]). rewrite T. reflexivity.
  - rewrite V in E. pose proof (cos_int n ltac:(lia)) as [_ CI]. rewrite toint_small; [reflexivity|exact FC|].
    replace (B2R (lm_cos L (nofZ n))) with ((B2R (lm_cos L (nofZ n)) - cos (IZR n)) + cos (IZR n))%R by ring. eapply Rle_lt_trans; [apply Rabs_triang|]. lra.
Qed.
Lemma tr_sin : forall c L n, s_libm c L -> (0 <= c <= 1000000)%R -> Z.abs n <= 3 -> tr1 (lm_sin L) (IVal n) = IVal 0.
Proof.
  intros c L n [LS _] C N. unfold tr1, iun. destruct (ofZ_R n) as [F V]; [change (2 ^ 53) with 9007199254740992; lia|]. destruct (LS (nofZ n) F) as [FC E]. pose proof (cu_small c C) as CU.
  rewrite V in E. pose proof (sin_int n N) as CI. rewrite toint_small; [reflexivity|exact FC|].
  replace (B2R (lm_sin L (nofZ n))) with ((B2R (lm_sin L (nofZ n)) - sin (IZR n)) + sin (IZR n))%R by ring. eapply Rle_lt_trans; [apply Rabs_triang|]. lra.
Qed.
(** with an accurate library whose cos(0) is 1: for angles in (-pi, pi) every sine is truncated to 0 and every cosine but cos(0) too *)
Theorem C112_rpy : forall c L r p y, s_libm c L -> (0 <= c <= 1000000)%R -> B2R (lm_cos L (nofZ 0)) = 1%R -> Z.abs r <= 3 -> Z.abs p <= 3 -> Z.abs y <= 3 ->
  i_setRPY L (IVal r) (IVal p) (IVal y) = s_im (M3 (s_ind p * s_ind y) 0 0 0 (s_ind r * s_ind y) 0 0 0 (s_ind p * s_ind r)) /\
  i_t2rot L (IVal y) = M2 (IVal (s_ind y)) (IVal 0) (IVal 0) (IVal (s_ind y)).
Proof.
  intros c L r p y LM C Z0 R P Y. pose proof (tr_cos c L r LM C Z0 R) as CR. pose proof (tr_cos c L p LM C Z0 P) as CP. pose proof (tr_cos c L y LM C Z0 Y) as CY.
  pose proof (tr_sin c L r LM C R) as SR. pose proof (tr_sin c L p LM C P) as SP. pose proof (tr_sin c L y LM C Y) as SY.
  unfold i_setRPY, m3rpy, i_t2rot, t2rot. cbn [ncos nsin TrigI]. rewrite CR, CP, CY, SR, SP, SY. clear.
  unfold s_ind, s_im. destruct (Z.eqb r 0), (Z.eqb p 0), (Z.eqb y 0); split; vm_compute; reflexivity.
Qed.
(** Transform3i::setRPY takes doubles and truncates them first: angles below one radian are the same as zero *)
Theorem C112_rpy_double : forall c L (t : trans3 cint) (r p y : F64), s_libm c L -> (0 <= c <= 1000000)%R -> B2R (lm_cos L (nofZ 0)) = 1%R ->
  s_fin r -> s_fin p -> s_fin y -> (Rabs (B2R r) < 4)%R -> (Rabs (B2R p) < 4)%R -> (Rabs (B2R y) < 4)%R ->
  let k (x : F64) := if Rlt_dec (Rabs (B2R x)) 1 then 1 else 0 in
  i_tsetRPY L t r p y = T3 (s_im (M3 (k p * k y) 0 0 0 (k r * k y) 0 0 0 (k p * k r))) (MathTypes.tt t).
Proof.
  intros c L t r p y LM C Z0 FR FP FY BR BP BY k.
  assert (A : forall x : F64, s_fin x -> (Rabs (B2R x) < 4)%R -> exists z, toint x = Some z /\ Z.abs z <= 3 /\ s_ind z = k x).
  { intros x F B. assert (B' := B). apply Rabs_lt_inv in B'. assert (Z3 : Z.abs (Ztrunc (B2R x)) <= 3).
    { rewrite <- Ztrunc_abs. pose proof (Rabs_pos (B2R x)). rewrite Ztrunc_floor by lra. apply Z.lt_succ_r. apply lt_IZR. eapply Rle_lt_trans; [apply Zfloor_lb|]. cbn. exact B. }
    exists (Ztrunc (B2R x)). split; [apply toint_F; split; [exact F|]; split; [reflexivity|unfold int_range; lia]|]. split; [exact Z3|].
    unfold s_ind, k. destruct (Rlt_dec (Rabs (B2R x)) 1) as [L1|L1].
    - assert (T0 : toint x = Some 0) by (apply toint_small; auto). apply toint_F in T0 as [_ [T0 _]]. rewrite T0. reflexivity.
    - replace (Z.eqb (Ztrunc (B2R x)) 0) with false; [reflexivity|]. symmetry. apply Z.eqb_neq. intros E. apply L1.
      assert (E' : Ztrunc (Rabs (B2R x)) = 0) by (rewrite Ztrunc_abs, E; reflexivity). rewrite Ztrunc_floor in E' by apply Rabs_pos. pose proof (Zfloor_ub (Rabs (B2R x))) as U. rewrite E' in U. cbn in U. lra. }
  destruct (A r FR BR) as [zr [R1 [R2 R3]]]. destruct (A p FP BP) as [zp [P1 [P2 P3]]]. destruct (A y FY BY) as [zy [Y1 [Y2 Y3]]].
  unfold i_tsetRPY. rewrite R1, P1, Y1. destruct (C112_rpy c L zr zp zy LM C Z0 R2 P2 Y2) as [E _]. rewrite E, R3, P3, Y3. reflexivity.
Qed.
(** so a yaw of two radians does not give a rotation *)
Theorem C112_rpy_not_rotation : exists L, s_libm 2 L /\ B2R (lm_cos L (nofZ 0)) = 1%R /\ exists r p y : Z, Z.abs r <= 3 /\ Z.abs p <= 3 /\ Z.abs y <= 3 /\ forall m, i_setRPY L (IVal r) (IVal p) (IVal y) = s_im m -> ~ s_zrot m.
Proof.
  assert (Z0 : B2R (lm_cos cr_libm (nofZ 0)) = 1%R).
  { cbn [lm_cos cr_libm]. destruct (ofZ_R 0) as [_ V]; [cbn; lia|]. rewrite V, cos_0. unfold fl. rewrite Rmult_1_l.
    assert (E : ZnearestE (bpow radix2 60) = 1152921504606846976) by (change (bpow radix2 60) with (IZR 1152921504606846976); apply (Zrnd_IZR ZnearestE) || apply Zrnd_IZR). rewrite E.
    rewrite <- SF2R_B2SF. assert (E2 : B2SF (binary_normalize 53 1024 prec64_gt0 emax64_gt mode_NE 1152921504606846976 (-60) false) = SpecFloat.S754_finite false 4503599627370496 (-52)) by (vm_compute; reflexivity).
    rewrite E2. unfold SF2R, F2R. cbn. lra. }
  exists cr_libm. split; [exact cr_libm_ok|]. split; [exact Z0|]. exists 0, 0, 2. split; [lia|]. split; [lia|]. split; [lia|]. intros m M R.
  destruct (C112_rpy 2 cr_libm 0 0 2 cr_libm_ok ltac:(lra) Z0 ltac:(lia) ltac:(lia) ltac:(lia)) as [E _]. rewrite E in M.
  assert (mxx m = 0 /\ myx m = 0 /\ mzx m = 0) as [A [B D]].
  { unfold s_im in M. cbn [mxx mxy mxz myx myy myz mzx mzy mzz] in M. change (s_ind 0) with 1 in M. change (s_ind 2) with 0 in M. injection M. intros. repeat split; lia. }
  pose proof (R 0 0 ltac:(lia) ltac:(lia))%nat as K. unfold s_zdot, s_zcol in K. cbn [vx vy vz Nat.eqb] in K. rewrite A, B, D in K. discriminate K.
Qed.

(** the model of getRotation used here is that of MathTypes.v when the division is an ordinary one *)
Theorem C112_get_double : forall (m : mat3 F64) (q0 : quat F64), getRotationG (fun _ => true) (fun s => ndiv (nlit 5 10) s) m q0 = Ret (m3getRotation m q0).
Proof. intros m q0. unfold getRotationG, m3getRotation. cbn [andb negb]. destruct (nltb n0 (nadd (nadd (mxx m) (myy m)) (mzz m))); reflexivity. Qed.
Example C112_nonvacuous : s_mle 500000000 (M3 3 4 5 (-6) 7 8 9 1 (-2)) /\ 0 < s_ztr (M3 3 4 5 (-6) 7 8 9 1 (-2)) /\ s_ztr (M3 1 0 0 0 (-1) 0 0 0 (-1)) <= 0 /\
  s_qn (Q 0 0 1 1) = 2 /\ s_qn (Q 1 2 3 4) = 30 /\ 0 < s_ztr (M3 0 0 0 0 0 0 0 0 (2 ^ 32 - 1)) mod 2 ^ 32.
Proof. unfold s_mle, s_vle, s_zrow, s_ztr, s_qn. cbn. lia. Qed.

Print Assumptions C112_get.
Print Assumptions C112_get_axis.
Print Assumptions C112_set.
Print Assumptions C112_round_trip.
Print Assumptions C112_quarter_turn_lost.
Print Assumptions C112_get_unsigned.
Print Assumptions C112_rpy.
Print Assumptions C112_rpy_double.
Print Assumptions C112_rpy_not_rotation.
Print Assumptions C112_get_double.
