(** * Octrees on doubles: listed cubes and queries *)
From Coq Require Import ZArith List Bool Lia Reals Lra Psatz.
From Flocq Require Import Core Relative Sterbenz Mult_error BinarySingleNaN.
From Verif Require Import Num MathTypes Outcome Mesh Box Octree Spec SpecOctree SpecRound SpecOctF NumOrd P_Tac P_Octree P_OctreeRun P_OctreeQ P_Round P_OctF.
Import ListNotations.
Local Open Scope R_scope.
Local Notation fin := (is_finite (prec := 53) (emax := 1024)).

Lemma F2_flat : forall {A B C : Type} (Q : B -> C -> Prop) (f : A -> list B) (g : A -> list C) l, (forall a, Forall2 Q (f a) (g a)) ->
  Forall2 Q (flat_map f l) (flat_map g l).
Proof. intros A B C Q f g l H. induction l as [|a l IH]; cbn [flat_map]; [constructor|]. apply Forall2_app; auto. Qed.
Lemma F2_left : forall {B C : Type} (Q : B -> C -> Prop) l l' b, Forall2 Q l l' -> In b l -> exists c, In c l' /\ Q b c.
Proof. intros B C Q l l' b H. induction H as [|x y l l' H1 H2 IH]; intros I; [destruct I|]. destruct I as [E|I]; [subst; exists y; cbn; auto|]. destruct (IH I) as [c [J K]]. exists c. cbn. auto. Qed.
Lemma F2_right : forall {B C : Type} (Q : B -> C -> Prop) l l' c, Forall2 Q l l' -> In c l' -> exists b, In b l /\ Q b c.
Proof. intros B C Q l l' c H. induction H as [|x y l l' H1 H2 IH]; intros I; [destruct I|]. destruct I as [E|I]; [subst; exists x; cbn; auto|]. destruct (IH I) as [b [J K]]. exists b. cbn. auto. Qed.

Lemma F2_impl : forall {B C : Type} (Q Q' : B -> C -> Prop) l l', (forall b c, Q b c -> Q' b c) -> Forall2 Q l l' -> Forall2 Q' l l'.
Proof. intros B C Q Q' l l' H K. induction K; constructor; auto. Qed.

Lemma b2n_F : forall b, fin (b2n b : F64) = true /\ B2R (b2n b : F64) = b2n b.
Proof. intros [|]; [apply (ofZ_R 1)|apply (ofZ_R 0)]; reflexivity. Qed.
Lemma mul_b2n : forall (sp : F64) b, fin sp = true -> Rabs (B2R sp) <= 10 ^ 20 -> fin (nmul sp (b2n b)) = true /\ B2R (nmul sp (b2n b)) = B2R sp * b2n b.
Proof.
  intros sp b F B. destruct (b2n_F b) as [FB EB]. pose proof big_ge.
  assert (AB : B2R sp * b2n b = B2R sp \/ B2R sp * b2n b = 0) by (destruct b; cbn; lra).
  destruct (mul_R sp (b2n b) F FB) as [A E].
  - rewrite EB. destruct AB as [-> | ->]; [lra|rewrite Rabs_R0; lra].
  - split; [exact A|]. rewrite E, EB. apply rnd_gen. destruct AB as [-> | ->]; [apply gen_B2R|apply gen_0].
Qed.

Section Cubes.
  Context (S : R) (SP : 0 < S).
  Context (P Q : nat -> R -> F64 -> Prop).
  (** x is a corner of level k *)
  Definition grid (k : nat) (x : R) : Prop := exists z, (0 <= z < 2 ^ Z.of_nat k)%Z /\ x = - S / 2 + s_side S k * IZR z.
  Context (HP : forall k x y t b, grid k x -> P k x y -> smin <= s_side S k <= smax -> fin t = true -> B2R t = s_side S (Datatypes.S k) * b2n (b : bool) ->
                P (Datatypes.S k) (x + s_side S (Datatypes.S k) * b2n b) (nadd y t)).
  Context (HQ : forall k x y t, grid k x -> P k x y -> smin <= s_side S k <= smax -> fin t = true -> B2R t = s_side S k -> Q k (x + s_side S k) (nadd y t)).
  Definition pv (P : nat -> R -> F64 -> Prop) (k : nat) (u : vec3 R) (v : vec3 F64) : Prop := P k (vx u) (vx v) /\ P k (vy u) (vy v) /\ P k (vz u) (vz v).
  Definition gridv (k : nat) (u : vec3 R) : Prop := grid k (vx u) /\ grid k (vy u) /\ grid k (vz u).
  Lemma grid_step : forall k x b, grid k x -> grid (Datatypes.S k) (x + s_side S (Datatypes.S k) * b2n (b : bool)).
  Proof.
    intros k x b [z [Z ->]]. exists (2 * z + (if b then 1 else 0))%Z. replace (Z.of_nat (Datatypes.S k)) with (1 + Z.of_nat k)%Z by lia. rewrite Z.pow_add_r by lia. split.
    - destruct b; lia.
    - rewrite plus_IZR, mult_IZR, side_half. destruct b; cbn; lra.
  Qed.
  Lemma cubes_rel : forall n n' k off off', sim n n' -> sized (s_side S k) n' -> gridv k off' -> pv P k off' off ->
    Forall2 (fun c c' => exists j, smin <= s_side S j <= smax /\ b_max c' = vadd (b_min c') (V3 (s_side S j) (s_side S j) (s_side S j)) /\
                                   pv P j (b_min c') (b_min c) /\ pv Q j (b_max c') (b_max c)) (node_cubes n off) (node_cubes n' off').
  Proof.
    induction n as [|s sp o ch IH]; intros n' k off off' H Z G V; destruct n' as [|s' sp' o' ch']; cbn [sim] in H; try contradiction; cbn [node_cubes]; [constructor|].
    cbn [sized] in Z. destruct Z as [-> [-> Z]]. destruct H as [F1 [F2 [E1 [E2 [SB [EO H]]]]]]. rewrite <- EO. destruct G as [G1 [G2 G3]]. destruct V as [V1 [V2 V3']]. destruct o.
    - constructor; [|constructor]. exists k. split; [exact SB|]. split; [reflexivity|]. split; [split; [exact V1|split; [exact V2|exact V3']]|].
      cbn [box_make b_max]. unfold pv, vadd. cbn [vx vy vz nadd NumR]. split; [apply HQ; auto|split; apply HQ; auto].
    - apply F2_flat. intros [[x y] z]. apply IH with (k := Datatypes.S k).
      + apply H.
      + rewrite side_half. apply Z.
      + unfold gridv, vadd. cbn [vx vy vz nadd nmul NumR]. rewrite <- side_half. split; [apply grid_step, G1|split; apply grid_step; auto].
      + assert (ML : forall b, fin (nmul sp (b2n b)) = true /\ B2R (nmul sp (b2n b)) = s_side S (Datatypes.S k) * b2n b).
        { intros b. destruct (mul_b2n sp b F2) as [A B]; [rewrite E2, Rabs_pos_eq; unfold smin, smax in SB; lra|]. split; [exact A|]. rewrite B, E2, side_half. reflexivity. }
        unfold pv, vadd. cbn [vx vy vz nadd nmul NumR]. change (@nmul F64 NumF) with (@nmul F64 NumF). rewrite <- side_half.
        split; [|split]; apply HP; auto; apply ML.
  Qed.
End Cubes.

(** ** general sides: every level adds at most one rounding error *)
Lemma level_small : forall S k, smin <= s_side S k -> S <= smax -> (k < 50)%nat.
Proof.
  intros S k L U. destruct (le_lt_dec 50 k) as [H|H]; auto. exfalso. pose proof (side_pow S k) as E.
  assert (2 ^ 50 <= 2 ^ k) by (apply Rle_pow; [lra|auto]). unfold smin, smax in *. nra.
Qed.
Lemma grid_range : forall S k x, 0 < S -> grid S k x -> - S / 2 <= x /\ x + s_side S k <= S / 2.
Proof.
  intros S k x P [z [Z ->]]. pose proof (side_pos S k P). pose proof (side_pow S k) as E. rewrite <- pow2_IZR in E.
  assert (0 <= IZR z) by (apply IZR_le; lia). assert (IZR z + 1 <= IZR (2 ^ Z.of_nat k)) by (rewrite <- plus_IZR; apply IZR_le; lia). nra.
Qed.
Definition err (S : R) (k : nat) (x : R) (y : F64) : Prop := fin y = true /\ Rabs (B2R y - x) <= INR k * (uro * S).
Lemma err_add : forall S k x y (t : F64) T, 0 < S <= smax -> (k < 50)%nat -> err S k x y -> fin t = true -> B2R t = T -> - S / 2 <= x + T <= S / 2 ->
  err S (Datatypes.S k) (x + T) (nadd y t).
Proof.
  intros S k x y t T P K [F E] FT ET R. unfold smax in P. pose proof big_ge.
  assert (KB : 0 <= INR k * (uro * S) <= S / 2).
  { assert (0 <= INR k < 50). { split; [apply pos_INR|]. replace 50 with (INR 50) by (cbn; lra). apply lt_INR, K. }
    assert (0 <= uro * S <= S / 200). { unfold uro. lra. } nra. }
  assert (YT : Rabs (B2R y + T) <= S).
  { replace (B2R y + T) with ((B2R y - x) + (x + T)) by ring. eapply Rle_trans; [apply Rabs_triang|]. assert (Rabs (x + T) <= S / 2) by (apply Rabs_le; lra). lra. }
  destruct (add_R y t F FT) as [A B]; [rewrite ET; lra|]. split; [exact A|]. rewrite B, ET.
  replace (rnd (B2R y + T) - (x + T)) with ((rnd (B2R y + T) - (B2R y + T)) + (B2R y - x)) by ring. eapply Rle_trans; [apply Rabs_triang|].
  assert (GT : gen T) by (rewrite <- ET; apply gen_B2R). pose proof (rnd_plus (B2R y) T (gen_B2R y) GT) as RP. apply uro_le in YT. rewrite S_INR. lra.
Qed.
Lemma cubes_err : forall S o o', s_sideF S -> osim S o o' -> oinv (B2R S) o' ->
  Forall2 (fun c c' => s_finv (b_min c) /\ s_finv (b_max c) /\ s_close (64 * (uro * B2R S)) (rv (b_min c)) (b_min c') /\ s_close (64 * (uro * B2R S)) (rv (b_max c)) (b_max c'))
    (oct_cubes o []) (oct_cubes o' []).
Proof.
  intros S o o' OK H I. destruct (side_smin S OK) as [FS [SB [SP _]]]. unfold oct_cubes. cbn [app]. destruct (corner_R S OK) as [[FL EL] _].
  assert (R : Forall2 (fun c c' => exists j, smin <= s_side (B2R S) j <= smax /\ b_max c' = vadd (b_min c') (V3 (s_side (B2R S) j) (s_side (B2R S) j) (s_side (B2R S) j)) /\
       pv (err (B2R S)) j (b_min c') (b_min c) /\ pv (fun k => err (B2R S) (Datatypes.S k)) j (b_max c') (b_max c)) (node_cubes (o_root o) (o_off o)) (node_cubes (o_root o') (o_off o'))).
  { apply (cubes_rel (B2R S)) with (k := 0%nat).
    - intros k x y t b G E B FT ET. destruct (grid_range _ _ _ SP G) as [G1 G2]. apply err_add; auto; [lra|eapply level_small; [apply B|lra]|].
      pose proof (side_pos (B2R S) k SP). rewrite side_half. destruct b; cbn; lra.
    - intros k x y t G E B FT ET. destruct (grid_range _ _ _ SP G) as [G1 G2]. apply err_add; auto; [lra|eapply level_small; [apply B|lra]|].
      pose proof (side_pos (B2R S) k SP). lra.
    - apply H.
    - rewrite side_0. apply I.
    - rewrite (oi_off _ _ I). assert (G : grid (B2R S) 0 (- B2R S / 2)) by (exists 0%Z; split; [cbn; lia|lra]). split; [exact G|split; exact G].
    - rewrite (oi_off _ _ I), (os_off _ _ _ H). assert (E : err (B2R S) 0 (- B2R S / 2) (ndiv (nopp S) n2)).
      { split; [exact FL|]. rewrite EL. replace (_ - _) with 0 by lra. rewrite Rabs_R0. cbn. lra. }
      split; [exact E|split; exact E]. }
  eapply F2_impl; [|exact R]. intros c c' [j [B [_ [[X [Y Z]] [X' [Y' Z']]]]]]. cbv beta in *.
  assert (J : (j < 50)%nat) by (eapply level_small; [apply B|lra]).
  assert (W : forall k x y, (k <= 64)%nat -> err (B2R S) k x y -> Rabs (B2R y - x) <= 64 * (uro * B2R S)).
  { intros k x y K [_ E]. eapply Rle_trans; [exact E|]. apply Rmult_le_compat_r; [apply Rmult_le_pos; [unfold uro; lra|lra]|].
    replace 64 with (INR 64) by (cbn; lra). apply le_INR, K. }
  split; [split; [apply X|split; [apply Y|apply Z]]|]. split; [split; [apply X'|split; [apply Y'|apply Z']]|].
  unfold s_close, rv. cbn [vx vy vz]. split; [split; [|split]; apply (W j); auto; lia|split; [|split]; apply (W (Datatypes.S j)); auto; lia].
Qed.

(** ** sides with few bits: no rounding at all *)
Lemma gen_short : forall n e, (Z.abs n < 2 ^ 53)%Z -> (-1074 <= e)%Z -> gen (IZR n * bpow radix2 e).
Proof.
  intros n e N E. unfold gen. change (SpecFloat.fexp 53 1024) with (FLT_exp (-1074) 53). apply generic_format_FLT.
  exists (Float radix2 n e); auto.
Qed.
Lemma side_bpow : forall M e k, s_side (IZR M * bpow radix2 e) k = IZR M * bpow radix2 (e - Z.of_nat k).
Proof.
  intros M e k. unfold s_side, Z.sub. rewrite bpow_plus, bpow_opp. rewrite <- (IZR_Zpower radix2 (Z.of_nat k)) by lia. change (radix2 ^ Z.of_nat k)%Z with (2 ^ Z.of_nat k)%Z.
  rewrite pow2_IZR. field. apply pow_nonzero. lra.
Qed.
Lemma gen_grid : forall S m j w, s_short S m -> (j <= m)%nat -> (j < 60)%nat -> (0 <= w <= 2 ^ Z.of_nat j)%Z -> gen (- S / 2 + s_side S j * IZR w).
Proof.
  intros S m j w [M [e [HM [HE ->]]]] J J2 W. assert (PJ : (0 < 2 ^ Z.of_nat j)%Z) by (apply Z.pow_pos_nonneg; lia).
  replace (- (IZR M * bpow radix2 e) / 2 + s_side (IZR M * bpow radix2 e) j * IZR w) with (IZR ((2 * w - 2 ^ Z.of_nat j) * M) * bpow radix2 (e - Z.of_nat j - 1)).
  - apply gen_short; [|lia]. destruct (Z_lt_le_dec 53 (Z.of_nat m)) as [B|B].
    + rewrite Z.pow_neg_r in HM by lia. assert (M = 0)%Z by lia. subst M. rewrite Z.mul_0_r. reflexivity.
    + rewrite Z.abs_mul. assert (Z.abs (2 * w - 2 ^ Z.of_nat j) <= 2 ^ Z.of_nat j)%Z by lia.
      apply Z.le_lt_trans with (2 ^ Z.of_nat j * Z.abs M)%Z; [nia|]. apply Z.le_lt_trans with (2 ^ Z.of_nat m * Z.abs M)%Z.
      * apply Z.mul_le_mono_nonneg_r; [lia|]. apply Z.pow_le_mono_r; lia.
      * replace 53%Z with (Z.of_nat m + (53 - Z.of_nat m))%Z by lia. rewrite Z.pow_add_r by lia.
        assert (0 < 2 ^ Z.of_nat m)%Z by (apply Z.pow_pos_nonneg; lia). apply Z.mul_lt_mono_pos_l; auto. lia.
  - rewrite side_bpow. unfold Z.sub. rewrite mult_IZR, plus_IZR, opp_IZR, mult_IZR, pow2_IZR, !bpow_plus, !bpow_opp. rewrite <- (IZR_Zpower radix2 (Z.of_nat j)) by lia.
    change (radix2 ^ Z.of_nat j)%Z with (2 ^ Z.of_nat j)%Z. rewrite pow2_IZR. change (bpow radix2 1) with 2. field. apply pow_nonzero. lra.
Qed.
Definition exa (m : nat) (k : nat) (x : R) (y : F64) : Prop := (k <= m)%nat -> fin y = true /\ B2R y = x.
Lemma exa_add : forall x (y t : F64) T, fin y = true -> B2R y = x -> fin t = true -> B2R t = T -> gen (x + T) -> Rabs (x + T) <= 10 ^ 20 ->
  fin (nadd y t) = true /\ B2R (nadd y t) = x + T.
Proof.
  intros x y t T FY EY FT ET G B. pose proof big_ge. destruct (add_R y t FY FT) as [A E]; [rewrite EY, ET; lra|]. split; [exact A|]. rewrite E, EY, ET. apply rnd_gen, G.
Qed.
Lemma cubes_exact : forall S o o' m, s_sideF S -> osim S o o' -> oinv (B2R S) o' -> s_short (B2R S) m ->
  Forall2 (fun c c' => exists k, b_max c' = vadd (b_min c') (V3 (s_side (B2R S) k) (s_side (B2R S) k) (s_side (B2R S) k)) /\
      ((k <= m)%nat -> s_finv (b_min c) /\ s_finv (b_max c) /\ rv (b_min c) = b_min c' /\ rv (b_max c) = b_max c')) (oct_cubes o []) (oct_cubes o' []).
Proof.
  intros S o o' m OK H I SH. destruct (side_smin S OK) as [FS [SB [SP _]]]. unfold oct_cubes. cbn [app]. destruct (corner_R S OK) as [[FL EL] _].
  assert (LE : forall x, - B2R S / 2 <= x <= B2R S / 2 -> Rabs x <= 10 ^ 20) by (intros x X; apply Rabs_le; unfold smax in SB; lra).
  assert (R : Forall2 (fun c c' => exists j, smin <= s_side (B2R S) j <= smax /\ b_max c' = vadd (b_min c') (V3 (s_side (B2R S) j) (s_side (B2R S) j) (s_side (B2R S) j)) /\
       pv (exa m) j (b_min c') (b_min c) /\ pv (exa m) j (b_max c') (b_max c)) (node_cubes (o_root o) (o_off o)) (node_cubes (o_root o') (o_off o'))).
  { apply (cubes_rel (B2R S)) with (k := 0%nat).
    - intros k x y t b G E B FT ET K. destruct (grid_range _ _ _ SP G) as [G1 G2]. pose proof (side_pos (B2R S) k SP). pose proof (level_small _ _ (proj1 B) (proj2 SB)) as KL.
      destruct (E ltac:(lia)) as [FY EY]. apply exa_add; auto.
      + apply (grid_step (B2R S) k x b) in G. destruct G as [z [Z ->]]. apply (gen_grid _ m); auto; lia.
      + apply LE. rewrite side_half. destruct b; cbn; lra.
    - intros k x y t G E B FT ET K. destruct (grid_range _ _ _ SP G) as [G1 G2]. pose proof (side_pos (B2R S) k SP). pose proof (level_small _ _ (proj1 B) (proj2 SB)) as KL.
      destruct (E K) as [FY EY]. apply exa_add; auto; [|apply LE; lra]. destruct G as [z [Z ->]].
      replace (- B2R S / 2 + s_side (B2R S) k * IZR z + s_side (B2R S) k) with (- B2R S / 2 + s_side (B2R S) k * IZR (z + 1)) by (rewrite plus_IZR; lra).
      apply (gen_grid _ m); auto; lia.
    - apply H.
    - rewrite side_0. apply I.
    - rewrite (oi_off _ _ I). assert (G : grid (B2R S) 0 (- B2R S / 2)) by (exists 0%Z; split; [cbn; lia|lra]). split; [exact G|split; exact G].
    - rewrite (oi_off _ _ I), (os_off _ _ _ H). assert (E : exa m 0 (- B2R S / 2) (ndiv (nopp S) n2)) by (intros _; split; [exact FL|exact EL]).
      split; [exact E|split; exact E]. }
  eapply F2_impl; [|exact R]. intros c c' [j [B [MX [[X [Y Z]] [X' [Y' Z']]]]]]. exists j. split; [exact MX|]. intros K.
  destruct (X K) as [X1 X2]. destruct (Y K) as [Y1 Y2]. destruct (Z K) as [Z1 Z2]. destruct (X' K) as [X1' X2']. destruct (Y' K) as [Y1' Y2']. destruct (Z' K) as [Z1' Z2'].
  split; [split; [exact X1|split; [exact Y1|exact Z1]]|]. split; [split; [exact X1'|split; [exact Y1'|exact Z1']]|].
  unfold rv. rewrite X2, Y2, Z2, X2', Y2', Z2'. destruct (b_min c'), (b_max c'). split; reflexivity.
Qed.

(** ** point queries *)
Lemma contains_sim : forall n n' (p : vec3 F64), sim n n' -> s_finv p -> node_contains n p = node_contains n' (rv p).
Proof.
  induction n as [|s sp o ch IH]; intros n' p H FP; destruct n' as [|s' sp' o' ch']; cbn [sim] in H; try contradiction; cbn [node_contains]; [reflexivity|].
  destruct H as [F1 [F2 [E1 [E2 [_ [EO H]]]]]]. rewrite <- EO. destruct o; [reflexivity|]. destruct FP as [P1 [P2 P3]].
  rewrite !(ltb_R sp) by auto. cbn [rv vx vy vz]. rewrite E2. cbn [nltb NumR]. apply IH; [apply H|]. split; [exact P1|split; [exact P2|exact P3]].
Qed.
Lemma oct_contains_sim : forall S o o' p, s_sideF S -> osim S o o' -> oinv (B2R S) o' -> s_finv p ->
  (oct_contains o p = true <-> s_in_box (s_low (B2R S)) (s_high (B2R S)) (rv p) /\ oct_contains o' (stored S p) = true).
Proof.
  intros S o o' p OK H I FP. destruct (corner_R S OK) as [[FL EL] [FH EH]]. unfold oct_contains at 1. rewrite (os_off _ _ _ H), (os_max _ _ _ H). cbn [vx vy vz].
  pose proof FP as [P1 [P2 P3]]. rewrite !(ltb_R _ (ndiv (nopp S) n2)), !(ltb_R (ndiv S n2)) by auto. rewrite EL, EH.
  match goal with |- (if ?c then _ else _) = true <-> _ => destruct c eqn:C end.
  - split; [discriminate|]. intros [[B1 [B2 B3]] _]. exfalso. unfold s_low, s_high, rv in *. cbn [vx vy vz] in *.
    repeat (apply orb_prop in C; destruct C as [C|C]); apply Rltb_true in C; lra.
  - repeat (apply orb_false_elim in C; destruct C as [C ?]). repeat match goal with E : Rltb _ _ = false |- _ => apply Rltb_false in E end.
    assert (B : s_in_box (s_low (B2R S)) (s_high (B2R S)) (rv p)) by (unfold s_in_box, s_low, s_high, rv; cbn [vx vy vz]; lra).
    destruct (stored_ok S p OK FP B) as [D1 [D2 [_ [_ D5]]]].
    rewrite (contains_sim _ (o_root o') _ (os_root _ _ _ H) D1), D2. unfold oct_contains. rewrite (oi_off _ _ I), (oi_max _ _ I).
    destruct D5 as [D5 [D6 D7]].
    match goal with |- _ <-> _ /\ (if ?c then _ else _) = true => assert (C' : c = false) end.
    { cbn [nltb NumR]. rewrite !(proj2 (Rltb_false _ _)) by lra. reflexivity. }
    rewrite C'. tauto.
Qed.

(** ** box queries *)
Definition lo_rel (s : R) (l : F64) (l' : R) : Prop :=
  fin l = true /\ l' <= s /\ (B2R l = l' \/ (B2R l <= 0 /\ l' <= 0)) /\ - (10 ^ 12 / s) <= B2R l.
Definition hi_rel (s : R) (h : F64) (h' : R) : Prop :=
  fin h = true /\ (B2R h = h' \/ (s <= B2R h /\ s <= h')) /\ 0 <= B2R h <= smax.
Lemma existsb_in : forall {A : Type} (f g : A -> bool) l, (forall a, In a l -> f a = g a) -> existsb f l = existsb g l.
Proof. intros A f g l H. induction l as [|a l IH]; cbn [existsb]; [reflexivity|]. rewrite (H a) by (left; auto). f_equal. apply IH. intros b B. apply H. right. auto. Qed.
Lemma inv_scale : forall s, smin <= s <= smax -> s <= 10 ^ 12 / s /\ 10 ^ 12 / (s / 2) = 2 * (10 ^ 12 / s) /\ 0 < 10 ^ 12 / s <= 10 ^ 23.
Proof.
  unfold smin, smax. intros s B. assert (I : s * (10 ^ 12 / s) = 10 ^ 12) by (field; lra). set (q := 10 ^ 12 / s) in *.
  assert (q0 : 0 < q) by (unfold q; apply Rdiv_lt_0_compat; lra). split; [nra|]. split; [unfold q; field; lra|]. split; [exact q0|]. nra.
Qed.
Lemma sub_gen : forall (x y : F64) r, fin x = true -> fin y = true -> B2R x - B2R y = r -> gen r -> Rabs r <= 10 ^ 24 -> fin (nsub x y) = true /\ B2R (nsub x y) = r.
Proof. intros x y r X Y E G B. pose proof big_ge. destruct (sub_R x y X Y) as [A C]; [rewrite E; lra|]. split; [exact A|]. rewrite C, E. apply rnd_gen, G. Qed.
Lemma axis_box : forall s (sp l h : F64) l' h', smin <= s <= smax -> fin sp = true -> B2R sp = s / 2 -> lo_rel s l l' -> hi_rel s h h' ->
  nltb sp l = nltb (s / 2) l' /\ nltb sp h = nltb (s / 2) h' /\
  forall b, In b (range01 (nltb (s / 2) l') (nltb (s / 2) h')) ->
    lo_rel (s / 2) (nsub l (nmul sp (b2n b))) (nsub l' (nmul (s / 2) (b2n b))) /\ hi_rel (s / 2) (nsub h (nmul sp (b2n b))) (nsub h' (nmul (s / 2) (b2n b))).
Proof.
  intros s sp l h l' h' SB FSP ESP [FL [LB [LR LM]]] [FH [HR HB]]. pose proof (inv_scale s SB) as [I1 [I2 I3]]. unfold smin, smax in *.
  rewrite (ltb_R sp l FSP FL), (ltb_R sp h FSP FH), ESP. cbn [nltb NumR].
  assert (EL : Rltb (s / 2) (B2R l) = Rltb (s / 2) l').
  { destruct LR as [-> |[L1 L2]]; [reflexivity|]. rewrite !(proj2 (Rltb_false _ _)) by lra. reflexivity. }
  assert (EH : Rltb (s / 2) (B2R h) = Rltb (s / 2) h').
  { destruct HR as [-> |[L1 L2]]; [reflexivity|]. rewrite !(proj2 (Rltb_true _ _)) by lra. reflexivity. }
  split; [exact EL|]. split; [exact EH|]. intros b IB. apply in_range01 in IB.
  destruct (mul_b2n sp b FSP) as [FT ET]; [rewrite ESP, Rabs_pos_eq; lra|]. rewrite ESP in ET. set (t := nmul sp (b2n b)) in *.
  pose proof big_ge as BG. destruct b.
  - assert (ET' : B2R t = s / 2) by (rewrite ET; cbn; lra). assert (T' : nmul (s / 2) (b2n true) = s / 2) by (cbn; lra). rewrite T'. cbn [nsub NumR].
    rewrite <- EH in IB. apply Rltb_true in IB. unfold lo_rel, hi_rel. rewrite I2. split.
    + destruct (Rlt_le_dec (s / 2) (B2R l)) as [C|C].
      * destruct LR as [LR|[L1 _]]; [|lra]. destruct (sub_half l t FL FT) as [A B]; [lra|lra|]. split; [exact A|]. rewrite B, ET'. split; [lra|]. split; [left; lra|lra].
      * assert (C' : l' <= s / 2) by (destruct LR as [<- |[_ L2]]; lra).
        assert (AB : Rabs (B2R l - B2R t) <= 10 ^ 12 / s + s / 2) by (rewrite ET'; apply Rabs_le; lra).
        destruct (sub_R l t FL FT) as [A B]; [lra|]. split; [exact A|]. rewrite B. split; [lra|]. split; [right; split; [apply rnd_le_gen; [apply gen_0|lra]|lra]|].
        assert (GO : gen (- B2R t)) by (apply generic_format_opp, gen_B2R). pose proof (rnd_plus (B2R l) (- B2R t) (gen_B2R l) GO) as RP.
        replace (B2R l + - B2R t) with (B2R l - B2R t) in RP by ring. apply uro_le in AB. unfold uro in *. apply Rabs_le_inv in RP. lra.
    + assert (AB : Rabs (B2R h - B2R t) <= big) by (rewrite Rabs_pos_eq; lra). destruct (sub_R h t FH FT AB) as [A B]. split; [exact A|].
      assert (BND : 0 <= B2R (nsub h t) <= 500000). { rewrite B. split; [apply rnd_ge_gen; [apply gen_0|lra]|]. apply Rle_trans with (B2R h); [|lra]. apply rnd_le_gen; [apply gen_B2R|lra]. }
      split; [|exact BND]. destruct (Rle_lt_dec (B2R h) s) as [C|C].
      * destruct HR as [HR|[HR1 HR2]].
        -- left. destruct (sub_half h t FH FT) as [_ D]; [lra|lra|]. rewrite D, ET'. lra.
        -- right. rewrite B. split; [|lra]. apply rnd_ge_gen; [rewrite <- ESP; apply gen_B2R|lra].
      * right. rewrite B. split; [apply rnd_ge_gen; [rewrite <- ESP; apply gen_B2R|lra]|]. destruct HR as [<- |[_ HR]]; lra.
  - assert (ET' : B2R t = 0) by (rewrite ET; cbn; lra). assert (T' : nmul (s / 2) (b2n false) = 0) by (cbn; lra). rewrite T'. cbn [nsub NumR].
    rewrite <- EL in IB. apply Rltb_false in IB. unfold lo_rel, hi_rel. rewrite I2. split.
    + destruct (sub_gen l t (B2R l) FL FT) as [A B]; [lra|apply gen_B2R|apply Rabs_le; lra|]. split; [exact A|]. rewrite B. split; [destruct LR as [<- |[_ L2]]; lra|]. split; [|lra].
      destruct LR as [LR|[L1 L2]]; [left|right]; lra.
    + destruct (sub_gen h t (B2R h) FH FT) as [A B]; [lra|apply gen_B2R|apply Rabs_le; lra|]. split; [exact A|]. rewrite B. split; [|unfold smax; lra].
      destruct HR as [HR|[L1 L2]]; [left|right]; lra.
Qed.
Lemma box_sim : forall n n' s (mn mx : vec3 F64) (mn' mx' : vec3 R), sim n n' -> sized s n' ->
  lo_rel s (vx mn) (vx mn') -> lo_rel s (vy mn) (vy mn') -> lo_rel s (vz mn) (vz mn') ->
  hi_rel s (vx mx) (vx mx') -> hi_rel s (vy mx) (vy mx') -> hi_rel s (vz mx) (vz mx') -> node_box n mn mx = node_box n' mn' mx'.
Proof.
  induction n as [|s0 sp o ch IH]; intros n' s mn mx mn' mx' H Z LX LY LZ HX HY HZ; destruct n' as [|s' sp' o' ch']; cbn [sim] in H; try contradiction; [reflexivity|].
  cbn [sized] in Z. destruct Z as [-> [-> Z]]. destruct H as [F1 [F2 [E1 [E2 [SB [EO H]]]]]]. cbn [node_box]. rewrite <- EO. destruct o; [reflexivity|].
  destruct (axis_box s sp _ _ _ _ SB F2 E2 LX HX) as [X1 [X2 X3]]. destruct (axis_box s sp _ _ _ _ SB F2 E2 LY HY) as [Y1 [Y2 Y3]]. destruct (axis_box s sp _ _ _ _ SB F2 E2 LZ HZ) as [Z1 [Z2 Z3]].
  rewrite X1, X2, Y1, Y2, Z1, Z2. apply existsb_in. intros x IX. apply existsb_in. intros y IY. apply existsb_in. intros z IZ. cbv zeta.
  destruct (X3 x IX) as [A1 A2]. destruct (Y3 y IY) as [B1 B2]. destruct (Z3 z IZ) as [C1 C2]. apply IH with (s := s / 2); auto.
Qed.
Lemma max_R : forall x y : F64, fin x = true -> fin y = true -> fin (nmax x y) = true /\ B2R (nmax x y) = Rmax (B2R x) (B2R y).
Proof.
  intros x y X Y. unfold nmax. rewrite (ltb_R x y X Y). unfold Rltb, Rmax. destruct (Rlt_dec (B2R x) (B2R y)) as [L|L], (Rle_dec (B2R x) (B2R y)) as [L'|L']; try lra; (split; [assumption|reflexivity || lra]).
Qed.
Lemma min_R : forall x y : F64, fin x = true -> fin y = true -> fin (nmin x y) = true /\ B2R (nmin x y) = Rmin (B2R x) (B2R y).
Proof.
  intros x y X Y. unfold nmin. rewrite (ltb_R y x Y X). unfold Rltb, Rmin. destruct (Rlt_dec (B2R y) (B2R x)) as [L|L], (Rle_dec (B2R x) (B2R y)) as [L'|L']; try lra; (split; [assumption|reflexivity || lra]).
Qed.
Definition overlap1 (S lo hi : R) : Prop := - S / 2 <= hi /\ lo <= S / 2.
(** one axis of the box handed to the root, as seen from the lower corner *)
Lemma clamp1 : forall S (a b : F64), s_sideF S -> fin a = true -> fin b = true -> B2R a <= B2R b -> overlap1 (B2R S) (B2R a) (B2R b) ->
  let l := ndiv (nopp S) n2 in let h := ndiv S n2 in let u := nsub (nmax a l) l in let v := nsub (nmin b h) l in
  lo_rel (B2R S) u (B2R u) /\ hi_rel (B2R S) v (B2R v) /\ 0 <= B2R u <= B2R v /\ B2R v <= B2R S /\
  Rabs (B2R u + - B2R S / 2 - Rmax (B2R a) (- B2R S / 2)) <= uro * B2R S /\ Rabs (B2R v + - B2R S / 2 - Rmin (B2R b) (B2R S / 2)) <= uro * B2R S.
Proof.
  intros S a b OK FA FB AB [O1 O2] l h u v. destruct (side_smin S OK) as [FS [SB [SP _]]]. destruct (corner_R S OK) as [[FL EL] [FH EH]]. fold l in FL, EL. fold h in FH, EH.
  destruct (max_R a l FA FL) as [FM EM]. destruct (min_R b h FB FH) as [FN EN]. rewrite EL in EM. rewrite EH in EN.
  assert (MB : - B2R S / 2 <= B2R (nmax a l) <= B2R S / 2). { rewrite EM. split; [apply Rmax_r|apply Rmax_lub; lra]. }
  assert (NB : - B2R S / 2 <= B2R (nmin b h) <= B2R S / 2). { rewrite EN. split; [apply Rmin_glb; lra|apply Rmin_r]. }
  destruct (stored1 S _ OK FM MB) as [U1 [U2 U3]]. destruct (stored1 S _ OK FN NB) as [V1 [V2 V3']]. fold l in U1, U2, U3, V1, V2, V3'. fold u in U1, U2, U3. fold v in V1, V2, V3'.
  assert (MN : B2R (nmax a l) <= B2R (nmin b h)). { rewrite EM, EN. apply Rmax_lub; apply Rmin_glb; lra. }
  assert (UV : B2R u <= B2R v).
  { pose proof big_ge. unfold smax in SB. destruct (sub_R (nmax a l) l FM FL) as [_ E1]; [rewrite EL, Rabs_pos_eq; lra|]. destruct (sub_R (nmin b h) l FN FL) as [_ E2]; [rewrite EL, Rabs_pos_eq; lra|].
    fold u in E1. fold v in E2. rewrite E1, E2. apply rnd_le. lra. }
  pose proof (inv_scale (B2R S) SB) as [_ [_ IS]].
  split; [split; [exact U1|split; [lra|split; [left; reflexivity|lra]]]|]. split; [split; [exact V1|split; [left; reflexivity|lra]]|].
  split; [lra|]. split; [lra|]. rewrite <- EM, <- EN. split; [exact U3|exact V3'].
Qed.
Definition clampv (S : R) (u : vec3 R) (f : R -> R -> R) (e : R) : vec3 R := V3 (f (vx u) e) (f (vy u) e) (f (vz u) e).
Definition overlap (S : R) (lo hi : vec3 R) : Prop := overlap1 S (vx lo) (vx hi) /\ overlap1 S (vy lo) (vy hi) /\ overlap1 S (vz lo) (vz hi).
Lemma oct_box_sim : forall S o o' b, s_sideF S -> osim S o o' -> oinv (B2R S) o' -> s_finv (b_min b) -> s_finv (b_max b) -> s_ordered (rv (b_min b)) (rv (b_max b)) ->
  (~ overlap (B2R S) (rv (b_min b)) (rv (b_max b)) -> oct_box o b = false) /\
  (overlap (B2R S) (rv (b_min b)) (rv (b_max b)) -> exists lo hi, s_ordered lo hi /\ oct_box o b = oct_box o' (box_make lo hi) /\
     s_close (uro * B2R S) lo (clampv (B2R S) (rv (b_min b)) Rmax (- B2R S / 2)) /\ s_close (uro * B2R S) hi (clampv (B2R S) (rv (b_max b)) Rmin (B2R S / 2))).
Proof.
  intros S o o' b OK H I [F1 [F2 F3]] [G1 [G2 G3]] [O1 [O2 O3]]. destruct (corner_R S OK) as [[FL EL] [FH EH]]. unfold rv in O1, O2, O3. cbn [vx vy vz] in O1, O2, O3.
  unfold oct_box at 1 2. rewrite (os_off _ _ _ H), (os_max _ _ _ H). cbv zeta. cbn [vx vy vz].
  rewrite !(ltb_R _ (ndiv (nopp S) n2)) by auto. rewrite !(ltb_R (ndiv S n2)) by auto. rewrite EL, EH.
  set (rej := (_ || _ || _ || _ || _ || _)%bool).
  assert (RJ : rej = false <-> overlap (B2R S) (rv (b_min b)) (rv (b_max b))).
  { unfold rej, overlap, overlap1, rv. cbn [vx vy vz]. rewrite !orb_false_iff, !Rltb_false. tauto. }
  split; [intros NO; destruct rej; [reflexivity|elim NO; apply RJ; reflexivity]|]. intros OV. rewrite (proj2 RJ OV).
  destruct OV as [V1 [V2 V3']]. unfold rv in V1, V2, V3'. cbn [vx vy vz] in V1, V2, V3'.
  pose proof (clamp1 S _ _ OK F1 G1 O1 V1) as [X1 [X2 [X3 [X4 [X5 X6]]]]]. pose proof (clamp1 S _ _ OK F2 G2 O2 V2) as [Y1 [Y2 [Y3 [Y4 [Y5 Y6]]]]].
  pose proof (clamp1 S _ _ OK F3 G3 O3 V3') as [Z1 [Z2 [Z3 [Z4 [Z5 Z6]]]]].
  unfold vsub. cbn [vx vy vz].
  set (ux := nsub (nmax (vx (b_min b)) (ndiv (nopp S) n2)) (ndiv (nopp S) n2)) in *. set (uy := nsub (nmax (vy (b_min b)) (ndiv (nopp S) n2)) (ndiv (nopp S) n2)) in *.
  set (uz := nsub (nmax (vz (b_min b)) (ndiv (nopp S) n2)) (ndiv (nopp S) n2)) in *. set (wx := nsub (nmin (vx (b_max b)) (ndiv S n2)) (ndiv (nopp S) n2)) in *.
  set (wy := nsub (nmin (vy (b_max b)) (ndiv S n2)) (ndiv (nopp S) n2)) in *. set (wz := nsub (nmin (vz (b_max b)) (ndiv S n2)) (ndiv (nopp S) n2)) in *.
  exists (V3 (B2R ux + - B2R S / 2) (B2R uy + - B2R S / 2) (B2R uz + - B2R S / 2)), (V3 (B2R wx + - B2R S / 2) (B2R wy + - B2R S / 2) (B2R wz + - B2R S / 2)).
  split; [unfold s_ordered; cbn [vx vy vz]; lra|]. split; [|unfold s_close, clampv, rv; cbn [vx vy vz]; auto 8].
  rewrite (box_sim (o_root o) (o_root o') (B2R S) (V3 ux uy uz) (V3 wx wy wz) (V3 (B2R ux) (B2R uy) (B2R uz)) (V3 (B2R wx) (B2R wy) (B2R wz))); auto;
    [|apply H|apply I].
  unfold oct_box. rewrite (oi_off _ _ I), (oi_max _ _ I). cbv zeta. cbn [box_make b_min b_max off_of max_of vx vy vz nltb NumR].
  rewrite !(proj2 (Rltb_false _ _)) by lra. cbn [orb].
  assert (EX : forall x, 0 <= x -> nsub (nmax (x + - B2R S / 2) (- B2R S / 2)) (- B2R S / 2) = x).
  { intros x X. unfold nmax. cbn [nltb nsub NumR]. rewrite (proj2 (Rltb_false _ _)) by lra. lra. }
  assert (EN : forall x, x <= B2R S -> nsub (nmin (x + - B2R S / 2) (B2R S / 2)) (- B2R S / 2) = x).
  { intros x X. unfold nmin. cbn [nltb nsub NumR]. rewrite (proj2 (Rltb_false _ _)) by lra. lra. }
  unfold vsub. cbn [vx vy vz]. rewrite !EX, !EN by lra. reflexivity.
Qed.
