(** Octrees over the reals: occupied paths. *)
From Coq Require Import ZArith NArith List Bool Lia Reals Lra Psatz Arith.
From Verif Require Import Num MathTypes Outcome Mesh Box Octree Spec SpecOctree NumOrd P_Tac P_Math P_Box.
Import ListNotations.
Local Open Scope R_scope.

(** *** resolution *)
Lemma side_pos : forall S k, 0 < S -> 0 < s_side S k.
Proof. intros. unfold s_side. apply Rdiv_lt_0_compat; auto. apply pow_lt. lra. Qed.
Lemma side_half : forall S k, s_side S (Datatypes.S k) = s_side S k / 2.
Proof. intros. unfold s_side. cbn [pow]. field. apply pow_nonzero. lra. Qed.
Lemma side_half' : forall S k, s_side S (Datatypes.S k) = s_side (S / 2) k.
Proof. intros. unfold s_side. cbn [pow]. field. apply pow_nonzero. lra. Qed.
Lemma side_0 : forall S, s_side S 0 = S.
Proof. intros. unfold s_side. cbn. field. Qed.
Lemma side_mono : forall S j k, 0 < S -> (j <= k)%nat -> s_side S k <= s_side S j.
Proof.
  intros S j k P L. induction L; [lra|]. rewrite side_half. pose proof (side_pos S m P). lra.
Qed.
Lemma side_small : forall S e, 0 < S -> 0 < e -> exists k, s_side S k < e.
Proof.
  intros S e P E. destruct (pow_lt_1_zero (/2)) with (y := e / S) as [N H].
  - rewrite Rabs_right; lra.
  - apply Rdiv_lt_0_compat; auto.
  - exists N. specialize (H N (le_n N)). rewrite Rabs_right in H.
    + unfold s_side. replace (S / 2 ^ N) with (S * (/2) ^ N) by (rewrite pow_inv; reflexivity).
      apply Rmult_lt_reg_r with (/ S); [apply Rinv_0_lt_compat; auto|].
      replace (S * (/2)^N * / S) with ((/2)^N) by (field; lra). auto.
    + apply Rle_ge, pow_le. lra.
Qed.
Lemma least : forall (P : nat -> Prop), (forall k, {P k} + {~ P k}) -> forall k, P k -> exists m, P m /\ forall j, (j < m)%nat -> ~ P j.
Proof.
  intros P D k. induction k as [k IH] using lt_wf_ind. intros H.
  assert (E : (exists j, (j < k)%nat /\ P j) \/ forall j, (j < k)%nat -> ~ P j).
  { clear IH H. induction k as [|k IH]; [right; intros; lia|]. destruct (D k) as [Y|N].
    - left. exists k. auto.
    - destruct IH as [[j [L J]]|A]; [left; exists j; auto|]. right. intros j L. destruct (Nat.eq_dec j k); [subst; auto|]. apply A. lia. }
  destruct E as [[j [L J]]|A]; [apply (IH j L J)|exists k; auto].
Qed.
Lemma level_ex : forall S res, 0 < S -> 0 < res -> exists k, s_level S res k.
Proof.
  intros S res P R. destruct (side_small S (res + 1 / 10 ^ 10) P) as [k K]; [lra|].
  destruct (least (fun k => s_side S k < res + 1 / 10 ^ 10)) with (k := k) as [m [M L]]; auto.
  { intros. apply Rlt_dec. }
  exists m. split; auto. intros j J. apply Rnot_lt_le. auto.
Qed.
Lemma level_uniq : forall S res k k', s_level S res k -> s_level S res k' -> k = k'.
Proof.
  intros S res k k' [A B] [A' B']. destruct (Nat.lt_trichotomy k k') as [L|[L|L]]; auto.
  - specialize (B' k L). lra.
  - specialize (B k' L). lra.
Qed.
Lemma level_exact : forall S m, 0 < S -> 1 / 10 ^ 10 <= s_side S m -> s_level S (s_side S m) m.
Proof.
  intros S m P H. split; [lra|]. intros j L. pose proof (side_mono S (Datatypes.S j) m P L). rewrite side_half in H0. 
  pose proof (side_mono S j m P). specialize (H1 (Nat.lt_le_incl _ _ L)). lra.
Qed.

Lemma halve_ok : forall m (r req : R), s_side r m <= req -> (forall j, (j < m)%nat -> req < s_side r j) ->
  forall fuel, (m < fuel)%nat -> halve fuel r req = Ret (s_side r m).
Proof.
  induction m as [|m IH]; intros r req H L fuel F; (destruct fuel as [|fuel]; [lia|]); cbn [halve]; cbn [nltb NumR].
  - rewrite side_0 in *. replace (Rltb req r) with false by (symmetry; apply Rltb_false; auto). reflexivity.
  - assert (req < r) by (specialize (L 0%nat); rewrite side_0 in L; apply L; lia).
    replace (Rltb req r) with true by (symmetry; apply Rltb_true; auto). cbn [ndiv NumR n2 nofZ].
    rewrite side_half' in *. apply IH; auto; [|lia]. intros j J. rewrite <- side_half'. apply L. lia.
Qed.
Lemma halve_fuel : forall f f' (r req x : R), (f <= f')%nat -> halve f r req = Ret x -> halve f' r req = Ret x.
Proof.
  induction f as [|f IH]; intros f' r req x L H; [discriminate|]. destruct f' as [|f']; [lia|]. cbn [halve] in *.
  destruct (nltb req r); auto. apply IH; auto. lia.
Qed.
Lemma resolution_ex : forall S req, 0 < S -> 0 < req -> exists m, s_side S m <= req /\ forall j, (j < m)%nat -> req < s_side S j.
Proof.
  intros S req P Q. destruct (side_small S req P Q) as [k K].
  destruct (least (fun k => s_side S k <= req)) with (k := k) as [m [M L]]; auto; [|lra|].
  { intros. destruct (Rle_dec (s_side S k0) req); auto. }
  exists m. split; auto. intros j J. apply Rnot_le_lt. auto.
Qed.
Lemma resolution_spec : forall S req m, 0 < S -> s_side S m <= req -> (forall j, (j < m)%nat -> req < s_side S j) -> s_resolution S req (s_side S m).
Proof.
  intros S req m P H L. split; [eauto|]. split; auto. intros j J. destruct (Nat.lt_ge_cases j m) as [C|C].
  - specialize (L j C). lra.
  - apply side_mono; auto.
Qed.
(** for a negative request (or 0 over the reals) the loop never ends *)
Lemma halve_diverges : forall fuel (r req : R), req <= 0 -> 0 < r -> halve fuel r req = Fuel.
Proof.
  induction fuel as [|f IH]; intros r req Q P; cbn [halve]; auto. cbn [nltb NumR].
  replace (Rltb req r) with true by (symmetry; apply Rltb_true; lra). cbn [ndiv NumR n2 nofZ]. apply IH; lra.
Qed.

(** *** paths *)
Definition step : Type := (bool * bool * bool)%type.
Fixpoint occ (n : node R) (path : list step) : Prop :=
  match n with
  | Null => False
  | Node _ _ o ch => match path with [] => o = true | (x, y, z) :: r => occ (ch x y z) r end
  end.
(** occupied with no occupied ancestor *)
Fixpoint listed (n : node R) (path : list step) : Prop :=
  match n with
  | Null => False
  | Node _ _ o ch => match path with [] => o = true | (x, y, z) :: r => o = false /\ listed (ch x y z) r end
  end.
Fixpoint sized (s : R) (n : node R) : Prop :=
  match n with
  | Null => True
  | Node s' sp _ ch => s' = s /\ sp = s / 2 /\ forall x y z, sized (s / 2) (ch x y z)
  end.
Definition nonnull (n : node R) : Prop := match n with Null => False | _ => True end.

Lemma listed_occ : forall n path, listed n path <-> occ n path /\ forall p q, path = p ++ q -> q <> [] -> ~ occ n p.
Proof.
  induction n as [|s sp o ch IH]; intros path; [cbn; tauto|]. destruct path as [|[[x y] z] r]; cbn [listed occ].
  - split; [|tauto]. intros ->. split; auto. intros p q E N. destruct p, q; try discriminate. congruence.
  - rewrite IH. split.
    + intros [-> [H K]]. split; auto. intros [|[[x' y'] z'] p] q E N; cbn [occ]; [discriminate|].
      injection E as <- <- <- ->. apply (K p q); auto.
    + intros [H K]. split; [|split; auto].
      * destruct o; auto. exfalso. apply (K [] ((x, y, z) :: r)); cbn [occ]; auto. discriminate.
      * intros p q -> N. apply (K ((x, y, z) :: p) q); auto.
Qed.
Lemma occ_listed : forall n path, occ n path -> exists p q, path = p ++ q /\ listed n p.
Proof.
  induction n as [|s sp o ch IH]; intros path H; [contradiction|]. destruct o.
  - exists [], path. split; auto. reflexivity.
  - destruct path as [|[[x y] z] r]; cbn [occ] in H; [discriminate|]. destruct (IH x y z r H) as [p [q [-> L]]].
    exists ((x, y, z) :: p), q. split; auto. cbn. auto.
Qed.

(** big-endian value of the digits along one axis *)
Fixpoint zval (l : list bool) : Z :=
  match l with [] => 0%Z | b :: r => ((if b then 2 ^ Z.of_nat (length r) else 0) + zval r)%Z end.
Definition ax (f : step -> bool) (path : list step) : list bool := map f path.
Definition px (s : step) := fst (fst s). Definition py (s : step) := snd (fst s). Definition pz (s : step) := snd s.

Lemma zval_range : forall l, (0 <= zval l < 2 ^ Z.of_nat (length l))%Z.
Proof.
  induction l as [|b l IH]; [cbn; lia|]. cbn [zval length]. rewrite Nat2Z.inj_succ, Z.pow_succ_r by lia. destruct b; lia.
Qed.
Lemma zval_inj : forall a b, length a = length b -> zval a = zval b -> a = b.
Proof.
  induction a as [|x a IH]; intros [|y b] L E; try discriminate; auto. cbn [length] in L. injection L as L. cbn [zval] in E.
  pose proof (zval_range a) as RA. pose proof (zval_range b) as RB. rewrite L in *. destruct x, y; try lia; f_equal; apply IH; auto; lia.
Qed.
Lemma path_inj : forall p q, length p = length q -> zval (ax px p) = zval (ax px q) -> zval (ax py p) = zval (ax py q) ->
  zval (ax pz p) = zval (ax pz q) -> p = q.
Proof.
  intros p q L X Y Z. apply zval_inj in X, Y, Z; try (unfold ax; rewrite !map_length; auto).
  revert q L X Y Z. induction p as [|[[x y] z] p IH]; intros [|[[x' y'] z'] q] L X Y Z; try discriminate; auto.
  cbn in X, Y, Z, L. injection L as L. injection X as -> X. injection Y as -> Y. injection Z as -> Z. f_equal. auto.
Qed.
Lemma zval_app : forall a b, zval (a ++ b) = (zval a * 2 ^ Z.of_nat (length b) + zval b)%Z.
Proof.
  induction a as [|x a IH]; intros b; [cbn; lia|]. cbn [zval app]. rewrite IH, app_length, Nat2Z.inj_add, Z.pow_add_r by lia.
  destruct x; lia.
Qed.
Lemma zval_prefix : forall a b, (zval (a ++ b) / 2 ^ Z.of_nat (length b) = zval a)%Z.
Proof.
  intros. rewrite zval_app. pose proof (zval_range b). rewrite Z.add_comm, Z.div_add by lia. rewrite Z.div_small; lia.
Qed.

(** *** digits of a point *)
Fixpoint digs (s : R) (k : nat) (x : R) : list bool :=
  match k with
  | O => []
  | S k' => let b := Rltb (s / 2) x in b :: digs (s / 2) k' (if b then x - s / 2 else x)
  end.
Fixpoint dpath (s : R) (k : nat) (p : vec3 R) : list step :=
  match k with
  | O => []
  | S k' => let bx := Rltb (s / 2) (vx p) in let by_ := Rltb (s / 2) (vy p) in let bz := Rltb (s / 2) (vz p) in
    (bx, by_, bz) :: dpath (s / 2) k' (V3 (if bx then vx p - s / 2 else vx p) (if by_ then vy p - s / 2 else vy p) (if bz then vz p - s / 2 else vz p))
  end.
Lemma dpath_len : forall k s p, length (dpath s k p) = k.
Proof. induction k; intros; cbn; auto. Qed.
Lemma dpath_ax : forall k s p, ax px (dpath s k p) = digs s k (vx p) /\ ax py (dpath s k p) = digs s k (vy p) /\ ax pz (dpath s k p) = digs s k (vz p).
Proof.
  induction k as [|k IH]; intros s p; [cbn; auto|]. cbn [dpath digs ax map px py pz fst snd].
  match goal with |- context [dpath (s / 2) k ?v] => destruct (IH (s/2) v) as [A [B C]] end. unfold ax in *. rewrite A, B, C. auto.
Qed.
Lemma digs_len : forall k s x, length (digs s k x) = k.
Proof. induction k; intros; cbn; auto. Qed.

Lemma pow2_IZR : forall k, IZR (2 ^ Z.of_nat k) = 2 ^ k.
Proof. intros. rewrite <- pow_IZR. reflexivity. Qed.
Lemma side_pow : forall S k, s_side S k * 2 ^ k = S.
Proof. intros. unfold s_side. field. apply pow_nonzero. lra. Qed.

Lemma digs_cell : forall k s x, s_cell1 s k x (zval (digs s k x)).
Proof.
  induction k as [|k IH]; intros s x.
  - split; [cbn; lia|]. split; left; reflexivity.
  - cbn [digs]. set (b := Rltb (s / 2) x). cbn [zval]. rewrite digs_len.
    specialize (IH (s/2) (if b then x - s / 2 else x)). set (z := zval (digs (s/2) k (if b then x - s / 2 else x))) in *.
    destruct IH as [A [B C]]. unfold s_cell1. rewrite side_half'. rewrite Nat2Z.inj_succ, Z.pow_succ_r by lia.
    assert (PW := side_pow (s/2) k). assert (PZ := pow2_IZR k).
    unfold b in *. destruct (Rltb (s / 2) x) eqn:E.
    + apply Rltb_true in E. split; [lia|]. rewrite plus_IZR, PZ. split.
      * right. destruct B as [B|B]; [rewrite B; nra|nra].
      * destruct C as [C|C]; [left; lia|right; nra].
    + apply Rltb_false in E. split; [lia|]. rewrite Z.add_0_l. split; auto.
      right. destruct C as [C|C]; [|auto]. rewrite C. rewrite minus_IZR, PZ. nra.
Qed.
Lemma cell1_uniq : forall s k x i j, 0 < s -> s_cell1 s k x i -> s_cell1 s k x j -> i = j.
Proof.
  intros s k x i j P [A [B C]] [A' [B' C']].
  assert (SP := side_pos s k P).
  destruct (Z.lt_trichotomy i j) as [L|[L|L]]; auto; exfalso.
  - destruct C as [C|C]; [lia|]. destruct B' as [B'|B']; [lia|].
    assert (IZR i + 1 <= IZR j) by (rewrite <- plus_IZR; apply IZR_le; lia). nra.
  - destruct C' as [C'|C']; [lia|]. destruct B as [B|B]; [lia|].
    assert (IZR j + 1 <= IZR i) by (rewrite <- plus_IZR; apply IZR_le; lia). nra.
Qed.
Lemma dpath_cell : forall k s p, s_cell s k p (zval (ax px (dpath s k p))) (zval (ax py (dpath s k p))) (zval (ax pz (dpath s k p))).
Proof. intros. destruct (dpath_ax k s p) as [-> [-> ->]]. repeat split; apply digs_cell. Qed.

(** *** add *)
Lemma sized_new : forall s, sized s (node_new s).
Proof. intros. cbn. auto. Qed.
Lemma occ_new : forall s path, ~ occ (node_new s) path.
Proof. intros s [|[[? ?] ?] ?]; cbn; auto. Qed.
Lemma set_ch_eq : forall (ch : bool -> bool -> bool -> node R) x y z n, set_ch ch x y z n x y z = n.
Proof. intros. unfold set_ch. rewrite !eqb_reflx. reflexivity. Qed.
Lemma set_ch_neq : forall (ch : bool -> bool -> bool -> node R) x y z n a b c, (a, b, c) <> (x, y, z) -> set_ch ch x y z n a b c = ch a b c.
Proof.
  intros. unfold set_ch. destruct (eqb a x) eqn:A, (eqb b y) eqn:B, (eqb c z) eqn:C; auto.
  apply eqb_prop in A, B, C. subst. congruence.
Qed.
Lemma level_S : forall s res k, s_level s res (S k) -> s_level (s / 2) res k /\ res + 1 / 10 ^ 10 <= s.
Proof.
  intros s res k [A B]. split.
  - split; [rewrite <- side_half'; auto|]. intros j J. rewrite <- side_half'. apply B. lia.
  - specialize (B 0%nat). rewrite side_0 in B. apply B. lia.
Qed.
Definition step_dec : forall a b : step, {a = b} + {a <> b}.
Proof. intros [[a b] c] [[d e] f]. destruct (bool_dec a d), (bool_dec b e), (bool_dec c f); subst; auto; right; congruence. Defined.

Lemma add_spec : forall k fuel s res n p, (k < fuel)%nat -> sized s n -> nonnull n -> s_level s res k ->
  exists n', node_add fuel res n p = Ret n' /\ sized s n' /\ nonnull n' /\
    forall path, occ n' path <-> occ n path \/ path = dpath s k p.
Proof.
  induction k as [|k IH]; intros fuel s res n p F Z NN L; (destruct fuel as [|fuel]; [lia|]); destruct n as [|s' sp o ch]; try contradiction;
    cbn [sized] in Z; destruct Z as [-> [-> Z]]; cbn [node_add].
  - destruct L as [A _]. rewrite side_0 in A. cbn [nltb nsub NumR nlit ndiv nofZ].
    replace (Rltb (s - 1 / 10000000000) res) with true by (symmetry; apply Rltb_true; lra).
    eexists. split; [reflexivity|]. split; [cbn; auto|]. split; [exact I|].
    intros [|[[x y] z] r]; cbn [occ dpath]; [tauto|]. split; auto. intros [H|H]; auto. discriminate.
  - destruct (level_S _ _ _ L) as [L' G]. cbn [nltb nsub NumR nlit ndiv nofZ n2].
    replace (Rltb (s - 1 / 10000000000) res) with false by (symmetry; apply Rltb_false; lra).
    cbn [dpath]. set (bx := Rltb (s / 2) (vx p)). set (by_ := Rltb (s / 2) (vy p)). set (bz := Rltb (s / 2) (vz p)).
    set (q := V3 (if bx then vx p - s / 2 else vx p) (if by_ then vy p - s / 2 else vy p) (if bz then vz p - s / 2 else vz p)).
    set (c := match ch bx by_ bz with Null => node_new (s / 2) | Node _ _ _ _ => ch bx by_ bz end).
    assert (C1 : sized (s / 2) c /\ nonnull c).
    { unfold c. specialize (Z bx by_ bz). destruct (ch bx by_ bz); [split; [apply sized_new|exact I]|split; [exact Z|exact I]]. }
    assert (C2 : forall r, occ c r <-> occ (ch bx by_ bz) r).
    { intros r. unfold c. destruct (ch bx by_ bz); [|tauto]. split; [intros H; destruct (occ_new _ _ H)|intros []]. }
    destruct (IH fuel (s/2) res c q) as [c' [E [E1 [E2 E3]]]]; [lia|tauto|tauto|auto|].
    replace (match ch bx by_ bz with Null => node_new (s / 2) | Node size split occ ch0 => Node size split occ ch0 end) with c
      by (unfold c; destruct (ch bx by_ bz); reflexivity).
    rewrite E. cbn [obind]. eexists. split; [reflexivity|]. split.
    { cbn [sized]. split; auto. split; auto. intros x y z. destruct (step_dec (x, y, z) (bx, by_, bz)) as [D|D].
      - injection D as -> -> ->. rewrite set_ch_eq. auto.
      - rewrite set_ch_neq; auto. }
    split; [exact I|].
    intros [|[[x y] z] r]; cbn [occ].
    { split; auto. intros [H|H]; auto. discriminate. }
    destruct (step_dec (x, y, z) (bx, by_, bz)) as [D|D].
    + injection D as -> -> ->. rewrite set_ch_eq, E3, C2. split; intros [H|H]; auto; [right; subst; auto|right; congruence].
    + rewrite set_ch_neq by auto. split; auto. intros [H|H]; auto. congruence.
Qed.

(** *** cubes *)
Definition pmin (off : vec3 R) (s : R) (path : list step) : vec3 R :=
  s_cmin off s (length path) (zval (ax px path)) (zval (ax py path)) (zval (ax pz path)).
Definition pmax (off : vec3 R) (s : R) (path : list step) : vec3 R :=
  s_cmax off s (length path) (zval (ax px path)) (zval (ax py path)) (zval (ax pz path)).
Lemma b2n_R : forall b, (b2n b : R) = if b then 1 else 0.
Proof. intros []; reflexivity. Qed.
Lemma ax_len : forall f p, length (ax f p) = length p.
Proof. intros. apply map_length. Qed.
Lemma corner_step : forall n c off s (b : bool) r, n = length r ->
  off + s_side s (S n) * (IZR (zval (b :: r)) + c) = off + s / 2 * (if b then 1 else 0) + s_side (s/2) n * (IZR (zval r) + c).
Proof.
  intros n c off s b r ->. cbn [zval]. rewrite plus_IZR, side_half'. assert (PW := side_pow (s/2) (length r)).
  destruct b; [rewrite pow2_IZR|]; nra.
Qed.
Definition shift (off : vec3 R) (s : R) (x y z : bool) : vec3 R :=
  vadd off (V3 (s/2 * (if x then 1 else 0)) (s/2 * (if y then 1 else 0)) (s/2 * (if z then 1 else 0))).
Lemma pmin_step : forall off s x y z r, pmin off s ((x, y, z) :: r) = pmin (shift off s x y z) (s/2) r.
Proof.
  intros. unfold pmin, s_cmin, shift. cbn [ax map px py pz fst snd length vadd vx vy vz nadd NumR].
  fold (ax px r) (ax py r) (ax pz r).
  assert (E : forall n off (b : bool) l, n = length l ->
    off + s_side s (S n) * IZR (zval (b :: l)) = off + s / 2 * (if b then 1 else 0) + s_side (s/2) n * IZR (zval l)).
  { intros n o b l H. pose proof (corner_step n 0 o s b l H). lra. }
  apply V3_eq; apply E; symmetry; apply ax_len.
Qed.
Lemma pmax_step : forall off s x y z r, pmax off s ((x, y, z) :: r) = pmax (shift off s x y z) (s/2) r.
Proof.
  intros. unfold pmax, s_cmax, shift. cbn [ax map px py pz fst snd length vadd vx vy vz nadd NumR].
  fold (ax px r) (ax py r) (ax pz r).
  apply V3_eq; apply corner_step; symmetry; apply ax_len.
Qed.
Lemma in_idx8 : forall s : step, In s idx8.
Proof. intros [[[] []] []]; cbn; tauto. Qed.

Lemma cubes_in : forall n s off b, sized s n ->
  (In b (node_cubes n off) <-> exists path, listed n path /\ b = box_make (pmin off s path) (pmax off s path)).
Proof.
  induction n as [|s' sp o ch IH]; intros s off b Z.
  - cbn. split; [intros []|intros [? [[] _]]].
  - cbn [sized] in Z. destruct Z as [-> [-> Z]]. cbn [node_cubes]. destruct o.
    + assert (E : box_make off (vadd off (V3 s s s)) = box_make (pmin off s []) (pmax off s [])).
      { f_equal; unfold pmin, pmax, s_cmin, s_cmax; cbn [length ax map zval]; rewrite side_0; destruct off as [a b' c]; unmath; apply V3_eq; ring. }
      cbn [In]. rewrite E. split.
      * intros [<-|[]]. exists []. cbn. auto.
      * intros [[|[[x y] z] r] [L ->]]; auto. cbn in L. destruct L as [L _]. discriminate.
    + rewrite in_flat_map.
      assert (K : forall x y z, vadd off (V3 (nmul (s/2) (b2n x)) (nmul (s/2) (b2n y)) (nmul (s/2) (b2n z))) = shift off s x y z)
        by (intros; rewrite !b2n_R; reflexivity).
      split.
      * intros [[[x y] z] [_ H]]. rewrite K in H. apply (IH x y z (s/2)) in H; auto. destruct H as [r [L ->]].
        exists ((x, y, z) :: r). cbn [listed]. rewrite pmin_step, pmax_step. auto.
      * intros [[|[[x y] z] r] [L ->]]; cbn [listed] in L; [discriminate|]. destruct L as [_ L]. exists (x, y, z). split; [apply in_idx8|].
        rewrite K. apply (IH x y z (s/2)); auto. exists r. rewrite pmin_step, pmax_step. auto.
Qed.

(** a node's cubes stay inside it, so cubes of different nodes are apart *)
Definition inb (mn mx lo hi : vec3 R) : Prop :=
  vx lo <= vx mn /\ vx mx <= vx hi /\ vy lo <= vy mn /\ vy mx <= vy hi /\ vz lo <= vz mn /\ vz mx <= vz hi.
Lemma ax_bounds : forall off s l, 0 < s -> off <= off + s_side s (length l) * IZR (zval l) /\ off + s_side s (length l) * (IZR (zval l) + 1) <= off + s.
Proof.
  intros off s l P. pose proof (zval_range l) as [A B]. assert (SP := side_pos s (length l) P). assert (PW := side_pow s (length l)).
  apply IZR_le in A. assert (IZR (zval l) + 1 <= 2 ^ length l) by (rewrite <- pow2_IZR, <- plus_IZR; apply IZR_le; lia).
  split; [nra|]. rewrite <- PW at 2. apply Rplus_le_compat_l. apply Rmult_le_compat_l; lra.
Qed.
Lemma path_bounds : forall off s path, 0 < s -> inb (pmin off s path) (pmax off s path) off (vadd off (V3 s s s)).
Proof.
  intros off s path P. unfold inb, pmin, pmax, s_cmin, s_cmax. cbn [vx vy vz vadd nadd NumR].
  pose proof (ax_bounds (vx off) s (ax px path) P) as X. pose proof (ax_bounds (vy off) s (ax py path) P) as Y. pose proof (ax_bounds (vz off) s (ax pz path) P) as Z.
  rewrite !ax_len in *. tauto.
Qed.
Lemma cubes_apart : forall n s off, 0 < s -> sized s n ->
  ForallOrdPairs (fun a b : box R => s_apart (b_min a) (b_max a) (b_min b) (b_max b)) (node_cubes n off).
Proof.
  induction n as [|s' sp o ch IH]; intros s off P Z; [constructor|].
  cbn [sized] in Z. destruct Z as [-> [-> Z]]. cbn [node_cubes]. destruct o; [repeat constructor|].
  assert (K : forall x y z, vadd off (V3 (nmul (s/2) (b2n x)) (nmul (s/2) (b2n y)) (nmul (s/2) (b2n z))) = shift off s x y z)
    by (intros; rewrite !b2n_R; reflexivity).
  assert (B : forall x y z b, In b (node_cubes (ch x y z) (shift off s x y z)) ->
     inb (b_min b) (b_max b) (shift off s x y z) (vadd (shift off s x y z) (V3 (s/2) (s/2) (s/2)))).
  { intros x y z b H. apply (cubes_in _ (s/2)) in H; auto. destruct H as [p [_ ->]]. apply path_bounds. lra. }
  assert (ND : NoDup (idx8)). { repeat constructor; cbn; intuition discriminate. }
  induction idx8 as [|[[x y] z] l IHl]; [constructor|]. cbn [flat_map]. rewrite K. inversion ND as [|? ? NI ND']; subst.
  specialize (IHl ND'). specialize (IH x y z (s/2) (shift off s x y z)).
  assert (F : forall A (Q : A -> A -> Prop) u v, ForallOrdPairs Q u -> ForallOrdPairs Q v -> (forall a b, In a u -> In b v -> Q a b) -> ForallOrdPairs Q (u ++ v)).
  { clear. intros A Q u v FU FV H. induction FU as [|a u FA FU IH]; auto. cbn. constructor.
    - apply Forall_app. split; auto. apply Forall_forall. intros b I. apply H; [left|]; auto.
    - apply IH. intros a' b' I I'. apply H; [right|]; auto. }
  apply F; auto; [apply IH; auto; lra|]. clear F IHl IH.
  intros a b HA HB. apply in_flat_map in HB. destruct HB as [[[x' y'] z'] [I HB]]. rewrite K in HB.
  apply B in HA. apply B in HB. unfold inb, shift in *. cbn [vadd vx vy vz nadd NumR] in *. unfold s_apart.
  assert (D : (x, y, z) <> (x', y', z')) by congruence.
  destruct x, x'; try (destruct y, y'; try (destruct z, z'; try congruence)); lra.
Qed.
