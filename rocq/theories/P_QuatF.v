(** * From rotation matrices to quaternions in double precision *)
From Coq Require Import ZArith Reals Lra Lia Bool.
From Flocq Require Import Core BinarySingleNaN.
From Verif Require Import Num MathTypes Spec SpecRound SpecQuatF P_Tac P_Math P_Round P_Round3 P_OctF.
Local Open Scope R_scope.
Local Notation fin := (is_finite (prec := 53) (emax := 1024)).

Definition near (e : R) (x : F64) (X : R) : Prop := fin x = true /\ Rabs (B2R x - X) <= e.

Lemma near_le : forall e d x X, near e x X -> e <= d -> near d x X.
Proof. intros e d x X [F H] L. split; auto. lra. Qed.
Lemma big100 : forall x, x <= 100 -> x <= big.
Proof. intros x H. apply Rle_trans with (bpow radix2 10); [cbn; lra|apply bpow_le; lia]. Qed.
Lemma eta_u : eta <= uro / 1000.
Proof.
  apply Rle_trans with (bpow radix2 (-63)); [apply bpow_le; lia|]. unfold uro. cbn. lra.
Qed.
Lemma u_small : uro <= / 1000000000000.
Proof. unfold uro. lra. Qed.
Lemma near_add : forall e d x X y Y B, near e x X -> near d y Y -> Rabs (X + Y) <= B -> B <= 10 -> e + d <= 1 / 10 ->
  near (e + d + uro * (B + 1 / 10)) (nadd x y) (X + Y).
Proof.
  intros e d x X y Y B [F1 E1] [F2 E2] HB B10 S. pose proof (Rabs_plus_le _ _ _ _ E1 E2) as E.
  replace (B2R x - X + (B2R y - Y)) with (B2R x + B2R y - (X + Y)) in E by ring. pose proof (Rabs_close _ _ _ _ E HB) as SZ.
  destruct (add_R x y F1 F2) as [F R]; [eapply Rle_trans; [exact SZ|apply big100; lra]|]. split; auto. rewrite R.
  replace (rnd (B2R x + B2R y) - (X + Y)) with (B2R x + B2R y - (X + Y) + (rnd (B2R x + B2R y) - (B2R x + B2R y))) by ring.
  apply Rabs_plus_le; [exact E|]. eapply Rle_trans; [apply rnd_plus; apply gen_B2R|]. apply uro_le. lra.
Qed.
Lemma near_opp : forall e x X, near e x X -> near e (nopp x) (- X).
Proof. intros e x X [F H]. destruct (opp_R x F) as [F' E]. split; auto. rewrite E. replace (- B2R x - - X) with (- (B2R x - X)) by ring. rewrite Rabs_Ropp. exact H. Qed.
Lemma near_sub : forall e d x X y Y B, near e x X -> near d y Y -> Rabs (X - Y) <= B -> B <= 10 -> e + d <= 1 / 10 ->
  near (e + d + uro * (B + 1 / 10)) (nsub x y) (X - Y).
Proof.
  intros e d x X y Y B [F1 E1] [F2 E2] HB B10 S. rewrite <- Rabs_Ropp in E2. pose proof (Rabs_plus_le _ _ _ _ E1 E2) as E.
  replace (B2R x - X + - (B2R y - Y)) with (B2R x - B2R y - (X - Y)) in E by ring. pose proof (Rabs_close _ _ _ _ E HB) as SZ.
  destruct (sub_R x y F1 F2) as [F R]; [eapply Rle_trans; [exact SZ|apply big100; lra]|]. split; auto. rewrite R.
  replace (rnd (B2R x - B2R y) - (X - Y)) with (B2R x - B2R y - (X - Y) + (rnd (B2R x - B2R y) - (B2R x - B2R y))) by ring.
  apply Rabs_plus_le; [exact E|]. destruct (opp_R y F2) as [_ O]. pose proof (rnd_plus (B2R x) (B2R (nopp y)) (gen_B2R x) (gen_B2R _)) as RE. rewrite O in RE.
  eapply Rle_trans; [exact RE|]. apply uro_le. unfold Rminus in SZ. lra.
Qed.
Lemma near_Z : forall z, (Z.abs z < 2 ^ 53)%Z -> near 0 (nofZ z) (IZR z).
Proof. intros z H. destruct (ofZ_R z H) as [F E]. split; auto. rewrite E. replace (IZR z - IZR z) with 0 by ring. rewrite Rabs_R0. lra. Qed.
Lemma half_R : fin (nlit 5 10 : F64) = true /\ B2R (nlit 5 10 : F64) = 1 / 2.
Proof.
  split; [vm_compute; reflexivity|]. assert (E : B2SF (nlit 5 10 : F64) = SpecFloat.S754_finite false 4503599627370496 (-53)) by (vm_compute; reflexivity).
  rewrite <- SF2R_B2SF, E. unfold SF2R, F2R. cbn [Fnum Fexp cond_Zopp]. change (bpow radix2 (-53)) with (/ 9007199254740992). lra.
Qed.

(** the pivot: from 4 p^2 to p and 1 / (4 p) *)
Lemma pivot : forall (t : F64) p E, near E t (4 * (p * p)) -> 49 / 100 <= p <= 1 -> E <= 1 / 100 ->
  near (E / 3 + 3 * uro) (ndiv (nsqrt t) n2) p /\ near (E / 3 + 3 * uro) (ndiv (nlit 5 10) (nsqrt t)) (/ (4 * p)).
Proof.
  intros t p E [F H] P E1. assert (E0 : 0 <= E) by (pose proof (Rabs_pos (B2R t - 4 * (p * p))); lra).
  assert (PP : 49 / 100 * (49 / 100) <= p * p) by nra. apply Rabs_le_inv in H. assert (T0 : 95 / 100 <= B2R t) by lra.
  destruct (sqrt_R t F) as [FS ES]; [lra|]. pose proof (sqrt_lt_R0 (B2R t) ltac:(lra)) as S0. pose proof (sqrt_sqrt (B2R t) ltac:(lra)) as SS.
  set (r := sqrt (B2R t)) in *. assert (R1 : 97 / 100 <= r) by nra.
  assert (RB : Rabs (r - 2 * p) <= 52 / 100 * E).
  { assert (K : (r - 2 * p) * (r + 2 * p) = B2R t - 4 * (p * p)) by (rewrite <- SS; ring). apply Rabs_le. split; apply Rnot_lt_le; intro C; nra. }
  pose proof u_small as US. pose proof uro_pos as UP. pose proof eta_u as EU. pose proof eta_pos as EP.
  assert (RU : r <= 201 / 100) by (apply Rabs_le_inv in RB; lra).
  pose proof (rnd_err r) as RE. rewrite <- ES in RE. rewrite (Rabs_pos_eq r) in RE by lra.
  set (s := nsqrt t) in *. set (sr := B2R s) in *.
  assert (SB : Rabs (sr - 2 * p) <= 52 / 100 * E + 202 / 100 * uro).
  { replace (sr - 2 * p) with (r - 2 * p + (sr - r)) by ring. eapply Rle_trans; [apply Rabs_plus_le; [exact RB|exact RE]|]. nra. }
  pose proof (Rabs_le_inv _ _ SB) as SBI. assert (SL : 97 / 100 <= sr) by lra. assert (SU : sr <= 201 / 100) by lra.
  destruct (ofZ_R 2) as [F2 E2]; [reflexivity|]. destruct half_R as [FH EH]. split.
  - destruct (div_R s n2 FS) as [FD ED]; [unfold n2; rewrite E2; lra|unfold n2; rewrite E2; fold sr; apply big100; apply Rabs_le; lra|].
    split; auto. rewrite ED. unfold n2. rewrite E2. fold sr.
    pose proof (rnd_err (sr / 2)) as RD. replace (rnd (sr / 2) - p) with ((sr - 2 * p) / 2 + (rnd (sr / 2) - sr / 2)) by field.
    rewrite (Rabs_pos_eq (sr / 2)) in RD by lra. apply Rabs_le_inv in RD. apply Rabs_le. nra.
  - assert (DB : Rabs (1 / 2 / sr - / (4 * p)) <= 29 / 100 * E + 115 / 100 * uro).
    { replace (1 / 2 / sr - / (4 * p)) with ((2 * p - sr) * (/ (4 * p) * / sr)) by (field; split; lra).
      assert (I1 : 0 < / (4 * p)) by (apply Rinv_0_lt_compat; lra). assert (I2 : 0 < / sr) by (apply Rinv_0_lt_compat; lra).
      assert (I3 : / (4 * p) <= / (196 / 100)) by (apply Rinv_le; lra). assert (I4 : / sr <= / (97 / 100)) by (apply Rinv_le; lra).
      rewrite Rabs_mult, (Rabs_pos_eq (/ (4 * p) * / sr)) by nra. rewrite Rabs_minus_sym.
      assert (K : / (4 * p) * / sr <= 53 / 100) by (eapply Rle_trans; [apply Rmult_le_compat; [lra|lra|exact I3|exact I4]|]; lra).
      apply Rle_trans with ((52 / 100 * E + 202 / 100 * uro) * (53 / 100)); [apply Rmult_le_compat; [apply Rabs_pos|nra|exact SB|exact K]|]. nra. }
    assert (DU : Rabs (1 / 2 / sr) <= 52 / 100).
    { rewrite Rabs_pos_eq; [|apply Rle_mult_inv_pos; lra]. apply Rle_trans with (1 / 2 * / (97 / 100)); [apply Rmult_le_compat_l; [lra|apply Rinv_le; lra]|lra]. }
    destruct (div_R (nlit 5 10) s FH) as [FD ED]; [fold sr; lra|rewrite EH; fold sr; apply big100; lra|].
    split; auto. rewrite ED, EH. fold sr. pose proof (rnd_err (1 / 2 / sr)) as RD.
    replace (rnd (1 / 2 / sr) - / (4 * p)) with (1 / 2 / sr - / (4 * p) + (rnd (1 / 2 / sr) - 1 / 2 / sr)) by ring.
    eapply Rle_trans; [apply Rabs_plus_le; [exact DB|exact RD]|]. nra.
Qed.
(** another component: (4 p c) * (1 / (4 p)) *)
Lemma scaled : forall (d h : F64) p c E D, near D d (4 * (p * c)) -> near E h (/ (4 * p)) -> 49 / 100 <= p <= 1 -> Rabs c <= 1 -> E <= 1 / 100 -> D <= 1 / 100 ->
  near (4 * E + 53 / 100 * D + 2 * uro) (nmul d h) c.
Proof.
  intros d h p c E D [F1 H1] [F2 H2] P C E1 D1. assert (E0 := Rle_trans _ _ _ (Rabs_pos _) H2). assert (D0 := Rle_trans _ _ _ (Rabs_pos _) H1).
  assert (I1 : 0 < / (4 * p)) by (apply Rinv_0_lt_compat; lra). assert (I3 : / (4 * p) <= / (196 / 100)) by (apply Rinv_le; lra).
  pose proof u_small as US. pose proof uro_pos as UP. pose proof eta_u as EU. pose proof eta_pos as EP.
  assert (HB : Rabs (B2R h) <= 53 / 100) by (apply Rabs_le_inv in H2; apply Rabs_le; lra).
  assert (PC : Rabs (4 * (p * c)) <= 4) by (apply Rabs_le_inv in C; apply Rabs_le; split; nra).
  assert (K : Rabs (B2R d * B2R h - c) <= 53 / 100 * D + 4 * E).
  { replace (B2R d * B2R h - c) with ((B2R d - 4 * (p * c)) * B2R h + 4 * (p * c) * (B2R h - / (4 * p))) by (field; lra).
    eapply Rle_trans; [apply Rabs_plus_le; [apply Rabs_mult_le; [exact H1|exact HB]|apply Rabs_mult_le; [exact PC|exact H2]]|]. lra. }
  pose proof (Rabs_close _ _ _ _ K C) as SZ.
  destruct (mul_R d h F1 F2) as [F R]; [eapply Rle_trans; [exact SZ|]; apply big100; lra|]. split; auto. rewrite R.
  replace (rnd (B2R d * B2R h) - c) with (B2R d * B2R h - c + (rnd (B2R d * B2R h) - B2R d * B2R h)) by ring.
  eapply Rle_trans; [apply Rabs_plus_le; [exact K|apply rnd_err]|]. nra.
Qed.

(** the entries of m approximate those of the matrix of the unit quaternion (x, y, z, w) *)
Record fits (e : R) (m : mat3 F64) (x y z w : R) : Prop := {
  f_xx : near e (mxx m) (1 - 2 * (y * y + z * z)); f_xy : near e (mxy m) (2 * (x * y - w * z)); f_xz : near e (mxz m) (2 * (x * z + w * y));
  f_yx : near e (myx m) (2 * (x * y + w * z)); f_yy : near e (myy m) (1 - 2 * (x * x + z * z)); f_yz : near e (myz m) (2 * (y * z - w * x));
  f_zx : near e (mzx m) (2 * (x * z - w * y)); f_zy : near e (mzy m) (2 * (y * z + w * x)); f_zz : near e (mzz m) (1 - 2 * (x * x + y * y));
  f_unit : x * x + y * y + z * z + w * w = 1 }.
Lemma fits_neg : forall e m x y z w, fits e m x y z w -> fits e m (- x) (- y) (- z) (- w).
Proof. intros e m x y z w [A B C D E F G H I U]. constructor; rewrite ?Rmult_opp_opp; auto. Qed.
Definition nearq (e : R) (q : quat F64) (x y z w : R) : Prop := near e (qx q) x /\ near e (qy q) y /\ near e (qz q) z /\ near e (qw q) w.

Lemma sq1 : forall a b, a * a + b = 1 -> 0 <= b -> Rabs a <= 1.
Proof. intros a b H B. apply Rabs_le. split; nra. Qed.
Lemma unit_le : forall x y z w : R, x * x + y * y + z * z + w * w = 1 -> Rabs x <= 1 /\ Rabs y <= 1 /\ Rabs z <= 1 /\ Rabs w <= 1.
Proof.
  intros x y z w U. pose proof (Rle_0_sqr x) as X. pose proof (Rle_0_sqr y) as Y. pose proof (Rle_0_sqr z) as Z. pose proof (Rle_0_sqr w) as W. unfold Rsqr in *.
  repeat split; [apply (sq1 x (y * y + z * z + w * w))|apply (sq1 y (x * x + z * z + w * w))|apply (sq1 z (x * x + y * y + w * w))|apply (sq1 w (x * x + y * y + z * z))]; lra.
Qed.
Lemma near_eq : forall e x X Y, near e x X -> X = Y -> near e x Y.
Proof. intros e x X Y H E. rewrite <- E. exact H. Qed.
Lemma prod2 : forall a b : R, Rabs a <= 1 -> Rabs b <= 1 -> Rabs (4 * (a * b)) <= 4.
Proof. intros a b A B. rewrite !Rabs_mult, (Rabs_pos_eq 4) by lra. pose proof (Rabs_pos a). pose proof (Rabs_pos b). nra. Qed.
Lemma sum2 : forall e x X y Y p c, near e x X -> near e y Y -> X + Y = 4 * (p * c) -> Rabs p <= 1 -> Rabs c <= 1 -> e <= / 1000 -> near (2 * e + 5 * uro) (nadd x y) (4 * (p * c)).
Proof.
  intros e x X y Y p c A B E P C S. rewrite <- E. pose proof (prod2 p c P C) as K. rewrite <- E in K. eapply near_le; [apply (near_add e e _ _ _ _ 4 A B K); lra|]. pose proof uro_pos. lra.
Qed.
Lemma diff2 : forall e x X y Y p c, near e x X -> near e y Y -> X - Y = 4 * (p * c) -> Rabs p <= 1 -> Rabs c <= 1 -> e <= / 1000 -> near (2 * e + 5 * uro) (nsub x y) (4 * (p * c)).
Proof.
  intros e x X y Y p c A B E P C S. rewrite <- E. pose proof (prod2 p c P C) as K. rewrite <- E in K. eapply near_le; [apply (near_sub e e _ _ _ _ 4 A B K); lra|]. pose proof uro_pos. lra.
Qed.
(** one component from its entry *)
Lemma other : forall e d h p c, e <= / 1000 -> near (2 * e + 5 * uro) d (4 * (p * c)) -> near ((3 * e + 13 * uro) / 3 + 3 * uro) h (/ (4 * p)) -> 49 / 100 <= p <= 1 -> Rabs c <= 1 -> 0 <= e ->
  near (6 * e + 36 * uro) (nmul d h) c.
Proof.
  intros e d h p c S D H P C E0. pose proof u_small. pose proof uro_pos. eapply near_le; [apply (scaled d h p c _ _ D H P C); lra|]. lra.
Qed.
Lemma fits_e : forall e m x y z w, fits e m x y z w -> 0 <= e.
Proof. intros e m x y z w [[_ A] _ _ _ _ _ _ _ _ _]. eapply Rle_trans; [apply Rabs_pos|exact A]. Qed.
Definition trF (m : mat3 F64) : F64 := nadd (nadd (mxx m) (myy m)) (mzz m).
Lemma trace_b : forall e m x y z w, fits e m x y z w -> e <= / 1000 -> near (3 * e + 8 * uro) (trF m) (4 * (w * w) - 1).
Proof.
  intros e m x y z w H S. destruct (unit_le _ _ _ _ (f_unit _ _ _ _ _ _ H)) as [X [Y [Z W]]]. pose proof (f_unit _ _ _ _ _ _ H) as U. pose proof u_small. pose proof uro_pos. pose proof (fits_e _ _ _ _ _ _ H).
  assert (A := near_add e e _ _ _ _ 2 (f_xx _ _ _ _ _ _ H) (f_yy _ _ _ _ _ _ H)). specialize (A ltac:(apply Rabs_le; split; nra) ltac:(lra) ltac:(lra)).
  assert (B := near_add _ e _ _ _ _ 5 A (f_zz _ _ _ _ _ _ H)). specialize (B ltac:(apply Rabs_le; split; nra) ltac:(lra) ltac:(lra)).
  eapply near_eq; [eapply near_le; [exact B|lra]|]. nra.
Qed.
(** first branch *)
Lemma branch_w : forall e m q0 x y z w, fits e m x y z w -> e <= / 1000 -> 49 / 100 <= w -> nltb n0 (trF m) = true ->
  nearq (6 * e + 36 * uro) (m3getRotation m q0) x y z w.
Proof.
  intros e m q0 x y z w H S W1 C. pose proof u_small as US. pose proof uro_pos as UP. pose proof (fits_e _ _ _ _ _ _ H) as E0. pose proof (f_unit _ _ _ _ _ _ H) as U.
  destruct (unit_le _ _ _ _ U) as [X [Y [Z W]]]. pose proof (Rabs_le_inv _ _ W) as WI.
  assert (T := near_add _ 0 _ _ _ _ 4 (trace_b e m x y z w H S) (near_Z 1 eq_refl)). specialize (T ltac:(apply Rabs_le; split; nra) ltac:(lra) ltac:(lra)).
  apply (near_eq _ _ _ (4 * (w * w))) in T; [|ring]. apply (near_le _ (3 * e + 13 * uro)) in T; [|lra].
  destruct (pivot _ _ _ T) as [Q H1]; [lra|lra|].
  unfold m3getRotation. fold (trF m). change (nltb n0 (trF m)) with (nltb n0 (trF m)) in C. rewrite C. unfold nearq. cbn [qset qx qy qz qw].
  split; [|split; [|split]].
  - eapply other; eauto; [|lra]. eapply diff2; [exact (f_zy _ _ _ _ _ _ H)|exact (f_yz _ _ _ _ _ _ H)|ring|auto|auto|auto].
  - eapply other; eauto; [|lra]. eapply diff2; [exact (f_xz _ _ _ _ _ _ H)|exact (f_zx _ _ _ _ _ _ H)|ring|auto|auto|auto].
  - eapply other; eauto; [|lra]. eapply diff2; [exact (f_yx _ _ _ _ _ _ H)|exact (f_xy _ _ _ _ _ _ H)|ring|auto|auto|auto].
  - eapply near_le; [exact Q|]. lra.
Qed.
(** the index of the other branches *)
Definition idx (m : mat3 F64) : nat :=
  if nltb (mxx m) (myy m) then (if nltb (myy m) (mzz m) then 2%nat else 1%nat) else (if nltb (mxx m) (mzz m) then 2%nat else 0%nat).
Lemma sum3 : forall e m x y z w a A b B c C p, fits e m x y z w -> near e a A -> near e b B -> near e c C -> e <= / 1000 ->
  Rabs (A - B) <= 2 -> A - B - C = 4 * (p * p) - 1 -> Rabs p <= 1 ->
  near (3 * e + 13 * uro) (nadd (nsub (nsub a b) c) n1) (4 * (p * p)).
Proof.
  intros e m x y z w a A b B c C p H HA HB HC S K EQ P. pose proof u_small as US. pose proof uro_pos as UP. pose proof (fits_e _ _ _ _ _ _ H) as E0. pose proof (prod2 p p P P) as PP. apply Rabs_le_inv in PP.
  assert (T1 := near_sub e e _ _ _ _ 2 HA HB K ltac:(lra) ltac:(lra)).
  assert (T2 := near_sub _ e _ _ _ _ 5 T1 HC ltac:(rewrite EQ; apply Rabs_le; lra) ltac:(lra) ltac:(lra)).
  assert (T3 := near_add _ 0 _ _ _ _ 4 T2 (near_Z 1 eq_refl) ltac:(rewrite EQ; apply Rabs_le; lra) ltac:(lra) ltac:(lra)).
  eapply near_eq; [eapply near_le; [exact T3|lra]|]. rewrite EQ. ring.
Qed.
Lemma branch_x : forall e m q0 x y z w, fits e m x y z w -> e <= / 1000 -> 49 / 100 <= x -> nltb n0 (trF m) = false -> idx m = 0%nat ->
  nearq (6 * e + 36 * uro) (m3getRotation m q0) x y z w.
Proof.
  intros e m q0 x y z w H S W1 C I. pose proof u_small as US. pose proof uro_pos as UP. pose proof (fits_e _ _ _ _ _ _ H) as E0. pose proof (f_unit _ _ _ _ _ _ H) as U.
  destruct (unit_le _ _ _ _ U) as [X [Y [Z W]]]. pose proof (Rabs_le_inv _ _ X) as WI.
  assert (T := sum3 e m x y z w _ _ _ _ _ _ x H (f_xx _ _ _ _ _ _ H) (f_yy _ _ _ _ _ _ H) (f_zz _ _ _ _ _ _ H) S ltac:(apply Rabs_le; split; nra) ltac:(nra) X).
  destruct (pivot _ _ _ T) as [Q H1]; [lra|lra|].
  unfold m3getRotation. fold (trF m). change (nltb n0 (trF m)) with (nltb n0 (trF m)) in C. rewrite C. fold (idx m). rewrite I. unfold nearq. cbn [qset qx qy qz qw m3get Nat.add Nat.mul Nat.modulo Nat.divmod snd Nat.sub fst].
  split; [|split; [|split]].
  - eapply near_le; [exact Q|]. lra.
  - eapply other; eauto; [|lra]. eapply sum2; [exact (f_yx _ _ _ _ _ _ H)|exact (f_xy _ _ _ _ _ _ H)|ring|auto|auto|auto].
  - eapply other; eauto; [|lra]. eapply sum2; [exact (f_zx _ _ _ _ _ _ H)|exact (f_xz _ _ _ _ _ _ H)|ring|auto|auto|auto].
  - eapply other; eauto; [|lra]. eapply diff2; [exact (f_zy _ _ _ _ _ _ H)|exact (f_yz _ _ _ _ _ _ H)|ring|auto|auto|auto].
Qed.
Lemma branch_y : forall e m q0 x y z w, fits e m x y z w -> e <= / 1000 -> 49 / 100 <= y -> nltb n0 (trF m) = false -> idx m = 1%nat ->
  nearq (6 * e + 36 * uro) (m3getRotation m q0) x y z w.
Proof.
  intros e m q0 x y z w H S W1 C I. pose proof u_small as US. pose proof uro_pos as UP. pose proof (fits_e _ _ _ _ _ _ H) as E0. pose proof (f_unit _ _ _ _ _ _ H) as U.
  destruct (unit_le _ _ _ _ U) as [X [Y [Z W]]]. pose proof (Rabs_le_inv _ _ Y) as WI.
  assert (T := sum3 e m x y z w _ _ _ _ _ _ y H (f_yy _ _ _ _ _ _ H) (f_zz _ _ _ _ _ _ H) (f_xx _ _ _ _ _ _ H) S ltac:(apply Rabs_le; split; nra) ltac:(nra) Y).
  destruct (pivot _ _ _ T) as [Q H1]; [lra|lra|].
  unfold m3getRotation. fold (trF m). change (nltb n0 (trF m)) with (nltb n0 (trF m)) in C. rewrite C. fold (idx m). rewrite I. unfold nearq. cbn [qset qx qy qz qw m3get Nat.add Nat.mul Nat.modulo Nat.divmod snd Nat.sub fst].
  split; [|split; [|split]].
  - eapply other; eauto; [|lra]. eapply sum2; [exact (f_xy _ _ _ _ _ _ H)|exact (f_yx _ _ _ _ _ _ H)|ring|auto|auto|auto].
  - eapply near_le; [exact Q|]. lra.
  - eapply other; eauto; [|lra]. eapply sum2; [exact (f_zy _ _ _ _ _ _ H)|exact (f_yz _ _ _ _ _ _ H)|ring|auto|auto|auto].
  - eapply other; eauto; [|lra]. eapply diff2; [exact (f_xz _ _ _ _ _ _ H)|exact (f_zx _ _ _ _ _ _ H)|ring|auto|auto|auto].
Qed.
Lemma branch_z : forall e m q0 x y z w, fits e m x y z w -> e <= / 1000 -> 49 / 100 <= z -> nltb n0 (trF m) = false -> idx m = 2%nat ->
  nearq (6 * e + 36 * uro) (m3getRotation m q0) x y z w.
Proof.
  intros e m q0 x y z w H S W1 C I. pose proof u_small as US. pose proof uro_pos as UP. pose proof (fits_e _ _ _ _ _ _ H) as E0. pose proof (f_unit _ _ _ _ _ _ H) as U.
  destruct (unit_le _ _ _ _ U) as [X [Y [Z W]]]. pose proof (Rabs_le_inv _ _ Z) as WI.
  assert (T := sum3 e m x y z w _ _ _ _ _ _ z H (f_zz _ _ _ _ _ _ H) (f_xx _ _ _ _ _ _ H) (f_yy _ _ _ _ _ _ H) S ltac:(apply Rabs_le; split; nra) ltac:(nra) Z).
  destruct (pivot _ _ _ T) as [Q H1]; [lra|lra|].
  unfold m3getRotation. fold (trF m). change (nltb n0 (trF m)) with (nltb n0 (trF m)) in C. rewrite C. fold (idx m). rewrite I. unfold nearq. cbn [qset qx qy qz qw m3get Nat.add Nat.mul Nat.modulo Nat.divmod snd Nat.sub fst].
  split; [|split; [|split]].
  - eapply other; eauto; [|lra]. eapply sum2; [exact (f_xz _ _ _ _ _ _ H)|exact (f_zx _ _ _ _ _ _ H)|ring|auto|auto|auto].
  - eapply other; eauto; [|lra]. eapply sum2; [exact (f_yz _ _ _ _ _ _ H)|exact (f_zy _ _ _ _ _ _ H)|ring|auto|auto|auto].
  - eapply near_le; [exact Q|]. lra.
  - eapply other; eauto; [|lra]. eapply diff2; [exact (f_yx _ _ _ _ _ _ H)|exact (f_xy _ _ _ _ _ _ H)|ring|auto|auto|auto].
Qed.
(** the pivot chosen by the comparisons is large *)
Lemma big_pivot : forall a : R, 97 / 100 <= 4 * (a * a) -> 49 / 100 <= a \/ 49 / 100 <= - a.
Proof. intros a H. destruct (Rle_dec (49 / 100) a); auto. right. nra. Qed.
Lemma getRotation_near : forall e m q0 x y z w, fits e m x y z w -> e <= / 1000 ->
  nearq (6 * e + 36 * uro) (m3getRotation m q0) x y z w \/ nearq (6 * e + 36 * uro) (m3getRotation m q0) (- x) (- y) (- z) (- w).
Proof.
  intros e m q0 x y z w H S. pose proof u_small as US. pose proof uro_pos as UP. pose proof (fits_e _ _ _ _ _ _ H) as E0. pose proof (f_unit _ _ _ _ _ _ H) as U.
  pose proof (fits_neg _ _ _ _ _ _ H) as HN. pose proof (trace_b e m x y z w H S) as [FT TB]. apply Rabs_le_inv in TB.
  assert (F0 : fin (n0 : F64) = true) by reflexivity. assert (B0 : B2R (n0 : F64) = 0) by (apply (ofZ_R 0); reflexivity).
  destruct (nltb n0 (trF m)) eqn:C.
  - assert (C' := C). rewrite (ltb_R _ _ F0 FT), B0, Rltb_true in C'. destruct (big_pivot w) as [P|P]; [lra|left|right]; apply branch_w; auto.
  - assert (C' := C). rewrite (ltb_R _ _ F0 FT), B0, Rltb_false in C'.
    destruct (f_xx _ _ _ _ _ _ H) as [FX EX]. destruct (f_yy _ _ _ _ _ _ H) as [FY EY]. destruct (f_zz _ _ _ _ _ _ H) as [FZ EZ].
    apply Rabs_le_inv in EX. apply Rabs_le_inv in EY. apply Rabs_le_inv in EZ.
    assert (I : (idx m = 0%nat /\ 97 / 100 <= 4 * (x * x)) \/ (idx m = 1%nat /\ 97 / 100 <= 4 * (y * y)) \/ (idx m = 2%nat /\ 97 / 100 <= 4 * (z * z))).
    { unfold idx. rewrite !ltb_R by auto. destruct (Rltb (B2R (mxx m)) (B2R (myy m))) eqn:A.
      - apply Rltb_true in A. destruct (Rltb (B2R (myy m)) (B2R (mzz m))) eqn:B; [apply Rltb_true in B|apply Rltb_false in B].
        + right. right. split; auto. nra.
        + right. left. split; auto. nra.
      - apply Rltb_false in A. destruct (Rltb (B2R (mxx m)) (B2R (mzz m))) eqn:B; [apply Rltb_true in B|apply Rltb_false in B].
        + right. right. split; auto. nra.
        + left. split; auto. nra. }
    destruct I as [[I P] | [[I P] | [I P]]]; destruct (big_pivot _ P) as [L|L]; [left|right|left|right|left|right].
    + apply branch_x; auto.
    + apply branch_x; auto.
    + apply branch_y; auto.
    + apply branch_y; auto.
    + apply branch_z; auto.
    + apply branch_z; auto.
Qed.

(** ** the matrix of a quaternion close to a unit quaternion *)
Lemma quad_near : forall x y X Y d, Rabs (X - x) <= d -> Rabs (Y - y) <= d -> Rabs (X * Y - x * y) <= d * (Rabs x + Rabs y + d).
Proof.
  intros x y X Y d H1 H2. replace (X * Y - x * y) with ((X - x) * y + x * (Y - y) + (X - x) * (Y - y)) by ring.
  pose proof (Rabs_mult_le _ _ _ _ H1 (Rle_refl (Rabs y))) as A. pose proof (Rabs_mult_le _ _ _ _ (Rle_refl (Rabs x)) H2) as B. pose proof (Rabs_mult_le _ _ _ _ H1 H2) as C.
  eapply Rle_trans; [apply Rabs_plus_le; [apply Rabs_plus_le; [exact A|exact B]|exact C]|]. lra.
Qed.
Lemma abs_sqr : forall x, Rabs x * Rabs x = x * x.
Proof. intro x. rewrite <- Rabs_mult. apply Rabs_pos_eq. nra. Qed.
Lemma sum4 : forall a b c d, 0 <= a -> 0 <= b -> 0 <= c -> 0 <= d -> a * a + b * b + c * c + d * d = 1 -> a + b + c + d <= 2.
Proof. intros a b c d A B C D H. apply Rnot_lt_le. intro L. assert (2 * 2 < (a + b + c + d) * (a + b + c + d)) by (apply Rmult_le_0_lt_compat; lra). pose proof (Rle_0_sqr (a - b)). pose proof (Rle_0_sqr (a - c)). pose proof (Rle_0_sqr (a - d)). pose proof (Rle_0_sqr (b - c)). pose proof (Rle_0_sqr (b - d)). pose proof (Rle_0_sqr (c - d)). unfold Rsqr in *. lra. Qed.
Lemma sum2_le : forall a b, 0 <= a -> 0 <= b -> a * a + b * b <= 1 -> a + b <= 142 / 100.
Proof. intros a b A B H. apply Rnot_lt_le. intro L. pose proof (Rle_0_sqr (a - b)). unfold Rsqr in *. nra. Qed.
Lemma ratio : forall N n d D, Rabs (N - n) <= 3 * D -> Rabs n <= 1 -> Rabs (d - 1) <= 4 * D + 4 * D * D -> D <= / 500 -> Rabs (2 * N / d - 2 * n) <= 15 * D.
Proof.
  intros N n d D HN Hn Hd S. assert (D0 : 0 <= D) by (pose proof (Rabs_pos (N - n)); lra). assert (Hd' : Rabs (d - 1) <= 41 / 10 * D) by nra.
  pose proof (Rabs_le_inv _ _ Hd') as I. assert (DL : 99 / 100 <= d) by lra.
  replace (2 * N / d - 2 * n) with (2 * (N - n - n * (d - 1)) * / d) by (field; lra). rewrite Rabs_mult.
  assert (K : Rabs (2 * (N - n - n * (d - 1))) <= 2 * (3 * D + 1 * (41 / 10 * D))).
  { rewrite Rabs_mult, (Rabs_pos_eq 2) by lra. apply Rmult_le_compat_l; [lra|]. unfold Rminus at 1. apply Rabs_plus_le; auto. rewrite Rabs_Ropp. apply Rabs_mult_le; auto. }
  assert (V : Rabs (/ d) <= 102 / 100). { rewrite Rabs_pos_eq by (left; apply Rinv_0_lt_compat; lra). apply Rle_trans with (/ (99 / 100)); [apply Rinv_le; lra|lra]. }
  eapply Rle_trans; [apply Rmult_le_compat; [apply Rabs_pos|apply Rabs_pos|exact K|exact V]|]. lra.
Qed.
Ltac repl t := match goal with |- Rabs ?a <= _ => replace a with t by (field; auto) end.
Lemma qmat_near : forall q p D, q_norm2 p = 1 -> s_closeq D q p -> D <= / 500 -> q_norm2 q <> 0 /\ s_closem (15 * D) (s_qmat q) (s_qmat p).
Proof.
  intros [X Y Z W] [x y z w] D U [HX [HY [HZ HW]]] S. unfold q_norm2 in *. cbn [qx qy qz qw] in *.
  pose proof (abs_sqr x) as QX. pose proof (abs_sqr y) as QY. pose proof (abs_sqr z) as QZ. pose proof (abs_sqr w) as QW.
  pose proof (Rabs_pos x) as PX. pose proof (Rabs_pos y) as PY. pose proof (Rabs_pos z) as PZ. pose proof (Rabs_pos w) as PW.
  assert (D0 : 0 <= D) by (pose proof (Rabs_pos (X - x)); lra).
  assert (U' : x * x + y * y + z * z + w * w = 1) by lra.
  assert (S4 : Rabs x + Rabs y + Rabs z + Rabs w <= 2) by (apply sum4; auto; lra).
  assert (SXY : Rabs x + Rabs y <= 142 / 100) by (apply sum2_le; auto; nra). assert (SXZ : Rabs x + Rabs z <= 142 / 100) by (apply sum2_le; auto; nra). assert (SYZ : Rabs y + Rabs z <= 142 / 100) by (apply sum2_le; auto; nra).
  set (d := X * X + Y * Y + Z * Z + W * W).
  assert (dB : Rabs (d - 1) <= 4 * D + 4 * D * D).
  { unfold d. rewrite <- U'. replace (X * X + Y * Y + Z * Z + W * W - (x * x + y * y + z * z + w * w)) with ((X * X - x * x) + (Y * Y - y * y) + (Z * Z - z * z) + (W * W - w * w)) by ring.
    eapply Rle_trans; [apply Rabs_plus_le; [apply Rabs_plus_le; [apply Rabs_plus_le|]|]; apply quad_near; eassumption|]. nra. }
  assert (d0 : d <> 0). { apply Rabs_le_inv in dB. assert (0 < d) by nra. lra. }
  split; [unfold d in d0; lra|].
  rewrite !qmat_eq by (unfold q_norm2; cbn [qx qy qz qw]; unfold d in d0; lra).
  assert (PR : forall a b A B, Rabs (A - a) <= D -> Rabs (B - b) <= D -> Rabs a + Rabs b <= 142 / 100 -> Rabs (A * A + B * B - (a * a + b * b)) <= 3 * D).
  { intros a b A B HA HB AB. replace (A * A + B * B - (a * a + b * b)) with ((A * A - a * a) + (B * B - b * b)) by ring.
    eapply Rle_trans; [apply Rabs_plus_le; apply quad_near; eassumption|]. nra. }
  assert (PS : forall a b c f A B C F, Rabs (A - a) <= D -> Rabs (B - b) <= D -> Rabs (C - c) <= D -> Rabs (F - f) <= D -> Rabs a + Rabs b + Rabs c + Rabs f <= 2 -> Rabs (A * B + C * F - (a * b + c * f)) <= 3 * D).
  { intros a b c f A B C F HA HB HC HF AB. replace (A * B + C * F - (a * b + c * f)) with ((A * B - a * b) + (C * F - c * f)) by ring.
    eapply Rle_trans; [apply Rabs_plus_le; apply quad_near; eassumption|]. nra. }
  assert (PD : forall a b c f A B C F, Rabs (A - a) <= D -> Rabs (B - b) <= D -> Rabs (C - c) <= D -> Rabs (F - f) <= D -> Rabs a + Rabs b + Rabs c + Rabs f <= 2 -> Rabs (A * B - C * F - (a * b - c * f)) <= 3 * D).
  { intros a b c f A B C F HA HB HC HF AB. replace (A * B - C * F - (a * b - c * f)) with ((A * B - a * b) + - (C * F - c * f)) by ring.
    eapply Rle_trans; [apply Rabs_plus_le; [|rewrite Rabs_Ropp]; apply quad_near; eassumption|]. nra. }
  assert (n1' : forall a b c f, a * a + b * b + c * c + f * f = 1 -> Rabs (a * a + b * b) <= 1 /\ Rabs (a * b + c * f) <= 1 /\ Rabs (a * b - c * f) <= 1).
  { intros a b c f H. pose proof (Rle_0_sqr (a - b)). pose proof (Rle_0_sqr (a + b)). pose proof (Rle_0_sqr (c - f)). pose proof (Rle_0_sqr (c + f)). unfold Rsqr in *. repeat split; apply Rabs_le; split; nra. }
  unfold m3setRotation. cbn [qx qy qz qw mxx mxy mxz myx myy myz mzx mzy mzz].
  change (n1 : R) with 1. change (n2 : R) with 2. unfold qlength2. cbn [qx qy qz qw nadd nsub nmul ndiv NumR]. fold d. rewrite !U'.
  unfold s_closem, s_close. cbn [vx vy vz mxx mxy mxz myx myy myz mzx mzy mzz].
  repeat match goal with |- _ /\ _ => split end.
  - repl (- (2 * (Y * Y + Z * Z) / d - 2 * (y * y + z * z))). rewrite Rabs_Ropp. apply ratio; auto. apply (n1' y z x w); lra.
  - repl (2 * (X * Y - W * Z) / d - 2 * (x * y - w * z)). apply ratio; auto; [apply PD; auto; lra|]. apply (n1' x y w z); lra.
  - repl (2 * (X * Z + W * Y) / d - 2 * (x * z + w * y)). apply ratio; auto; [apply PS; auto; lra|]. apply (n1' x z w y); lra.
  - repl (2 * (X * Y + W * Z) / d - 2 * (x * y + w * z)). apply ratio; auto; [apply PS; auto; lra|]. apply (n1' x y w z); lra.
  - repl (- (2 * (X * X + Z * Z) / d - 2 * (x * x + z * z))). rewrite Rabs_Ropp. apply ratio; auto. apply (n1' x z y w); lra.
  - repl (2 * (Y * Z - W * X) / d - 2 * (y * z - w * x)). apply ratio; auto; [apply PD; auto; lra|]. apply (n1' y z w x); lra.
  - repl (2 * (X * Z - W * Y) / d - 2 * (x * z - w * y)). apply ratio; auto; [apply PD; auto; lra|]. apply (n1' x z w y); lra.
  - repl (2 * (Y * Z + W * X) / d - 2 * (y * z + w * x)). apply ratio; auto; [apply PS; auto; lra|]. apply (n1' y z w x); lra.
  - repl (- (2 * (X * X + Y * Y) / d - 2 * (x * x + y * y))). rewrite Rabs_Ropp. apply ratio; auto. apply (n1' x y z w); lra.
Qed.
