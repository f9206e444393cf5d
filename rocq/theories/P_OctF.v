(** * Octrees on doubles follow octrees on reals *)
From Coq Require Import ZArith List Bool Lia Reals Lra Psatz.
From Flocq Require Import Core Relative Sterbenz Mult_error BinarySingleNaN.
From Verif Require Import Num MathTypes Outcome Mesh Box Octree Spec SpecOctree SpecRound SpecOctF NumOrd P_Tac P_Octree P_OctreeRun P_OctreeQ P_Round.
Import ListNotations.
Local Open Scope R_scope.
Local Notation fin := (is_finite (prec := 53) (emax := 1024)).

(** ** exact operations *)
Lemma big_ge : 10 ^ 30 <= big.
Proof.
  unfold big. apply Rle_trans with (bpow radix2 100); [|apply bpow_le; lia]. rewrite bpow_powerRZ. 
  change (powerRZ (IZR radix2) 100) with (2 ^ 100). lra.
Qed.
Lemma ltb_R : forall x y : F64, fin x = true -> fin y = true -> nltb x y = Rltb (B2R x) (B2R y).
Proof.
  intros x y X Y. cbn [nltb NumF]. rewrite (Bltb_correct 53 1024 x y X Y). unfold Rltb.
  destruct (Rlt_dec (B2R x) (B2R y)) as [L|L]; [apply Rlt_bool_true; auto|apply Rlt_bool_false; lra].
Qed.
Lemma rnd_le : forall x y, x <= y -> rnd x <= rnd y.
Proof. intros x y H. unfold rnd. apply round_le; auto; [apply (fexp_correct 53 1024); exact prec64_gt0|apply valid_rnd_N]. Qed.
Lemma rnd_ge_gen : forall x y, gen x -> x <= y -> x <= rnd y.
Proof. intros x y G H. rewrite <- (rnd_gen x G). apply rnd_le, H. Qed.
Lemma rnd_le_gen : forall x y, gen y -> x <= y -> rnd x <= y.
Proof. intros x y G H. rewrite <- (rnd_gen y G). apply rnd_le, H. Qed.
Lemma gen_0 : gen 0.
Proof. apply generic_format_0. Qed.
Lemma gen_half : forall x, gen x -> bpow radix2 (-1000) <= Rabs x -> gen (x / 2).
Proof.
  intros x G L. unfold gen in *. change (SpecFloat.fexp 53 1024) with (FLT_exp (-1074) 53) in *.
  replace (x / 2) with (x * bpow radix2 (-1)) by (change (bpow radix2 (-1)) with (/ 2); unfold Rdiv; ring).
  apply mult_bpow_exact_FLT; auto. assert (-1000 < mag radix2 x)%Z; [|lia]. apply mag_gt_bpow. auto.
Qed.
Lemma tiny : bpow radix2 (-1000) <= 1 / 10 ^ 12.
Proof.
  apply Rle_trans with (bpow radix2 (-40)); [apply bpow_le; lia|]. rewrite bpow_powerRZ. change (powerRZ (IZR radix2) (-40)) with (/ 2 ^ 40). lra.
Qed.
Lemma two_R : fin (n2 : F64) = true /\ B2R (n2 : F64) = 2.
Proof. apply (ofZ_R 2). reflexivity. Qed.
Lemma half_R : forall x : F64, fin x = true -> 1 / 10 ^ 12 <= Rabs (B2R x) <= 10 ^ 20 -> fin (ndiv x n2) = true /\ B2R (ndiv x n2) = B2R x / 2.
Proof.
  intros x X [L U]. destruct two_R as [_ T]. pose proof big_ge. destruct (div_R x n2 X) as [F E].
  - rewrite T. lra.
  - rewrite T. unfold Rdiv. rewrite Rabs_mult, (Rabs_pos_eq (/ 2)) by lra. lra.
  - split; [exact F|]. rewrite E, T. apply rnd_gen, gen_half; [apply gen_B2R|]. pose proof tiny. lra.
Qed.
Lemma sub_half : forall x y : F64, fin x = true -> fin y = true -> 0 <= B2R y <= 10 ^ 20 -> B2R y <= B2R x <= 2 * B2R y ->
  fin (nsub x y) = true /\ B2R (nsub x y) = B2R x - B2R y.
Proof.
  intros x y X Y B H. pose proof big_ge. destruct (sub_R x y X Y) as [F E].
  - rewrite Rabs_pos_eq by lra. lra.
  - split; [exact F|]. rewrite E. apply rnd_gen. unfold gen. apply sterbenz; [apply (fexp_correct 53 1024); exact prec64_gt0|apply fexp_monotone|apply gen_B2R..|lra].
Qed.
Lemma lit_tol : fin (nlit 1 10000000000 : F64) = true /\ 9 / 10 ^ 11 <= B2R (nlit 1 10000000000 : F64) <= 11 / 10 ^ 11.
Proof.
  unfold nlit. destruct (ofZ_R 1) as [F1 E1]; [reflexivity|]. destruct (ofZ_R 10000000000) as [F2 E2]; [reflexivity|]. pose proof big_ge as BG.
  destruct (div_R (nofZ 1 : F64) (nofZ 10000000000)) as [F E]; [exact F1|rewrite E2; lra|rewrite E1, E2, Rabs_pos_eq; lra|]. split; [exact F|].
  rewrite E, E1, E2. pose proof (rnd_err (1 / 10000000000)) as R. rewrite (Rabs_pos_eq (1 / 10000000000)) in R by lra.
  assert (eta <= 1 / 10 ^ 12). { pose proof tiny. apply Rle_trans with (bpow radix2 (-1000)); auto. unfold eta. apply bpow_le. lia. }
  unfold uro in R. apply Rabs_le_inv in R. lra.
Qed.

(** ** trees *)
Definition smin : R := 1 / 2000000000.
Definition smax : R := 500000.
Fixpoint sim (n : node F64) (n' : node R) : Prop :=
  match n, n' with
  | Null, Null => True
  | Node s sp o ch, Node s' sp' o' ch' =>
    fin s = true /\ fin sp = true /\ B2R s = s' /\ B2R sp = sp' /\ smin <= s' <= smax /\ o = o' /\ forall x y z, sim (ch x y z) (ch' x y z)
  | _, _ => False
  end.
Lemma sim_new : forall s : F64, fin s = true -> smin <= B2R s <= smax -> sim (node_new s) (node_new (B2R s)).
Proof.
  intros s F B. unfold smin, smax in B. destruct (half_R s F) as [F2 E2]; [rewrite Rabs_pos_eq by lra; lra|]. cbn [sim node_new].
  split; [exact F|]. split; [exact F2|]. split; [reflexivity|]. split; [exact E2|]. split; [exact B|]. split; [reflexivity|]. intros; exact I.
Qed.
Lemma sim_copy : forall n n', sim n n' -> sim (node_copy n) (node_copy n').
Proof.
  induction n as [|s sp o ch IH]; intros n' H; destruct n' as [|s' sp' o' ch']; cbn [sim node_copy] in *; try contradiction; auto.
  destruct H as [H1 [H2 [H3 [H4 [H5 [H6 H7]]]]]]. split; [exact H1|]. split; [exact H2|]. split; [exact H3|]. split; [exact H4|]. split; [exact H5|]. split; [exact H6|]. intros x y z. apply IH, H7.
Qed.
Lemma sim_set : forall ch ch' (x y z : bool) n n', (forall a b c, sim (ch a b c) (ch' a b c)) -> sim n n' ->
  forall a b c, sim (set_ch ch x y z n a b c) (set_ch ch' x y z n' a b c).
Proof. intros ch ch' x y z n n' H K a b c. unfold set_ch. destruct (_ && _ && _)%bool; auto. Qed.

(** the tolerance test *)
Lemma tol_stop : forall s res : F64, fin s = true -> fin res = true -> B2R s = B2R res -> smin <= B2R s <= smax ->
  nltb (nsub s (nlit 1 10000000000)) res = true.
Proof.
  intros s res F G E B. unfold smin, smax in B. destruct lit_tol as [LF LB]. pose proof big_ge as BG.
  destruct (sub_R s (nlit 1 10000000000) F LF) as [F1 E1]. { rewrite Rabs_pos_eq; lra. }
  rewrite ltb_R by auto. apply Rltb_true. rewrite E1. pose proof (rnd_plus (B2R s) (- B2R (nlit 1 10000000000 : F64)) (gen_B2R s)) as R.
  assert (GO : gen (- B2R (nlit 1 10000000000 : F64))) by (apply generic_format_opp, gen_B2R). specialize (R GO).
  set (c := B2R (nlit 1 10000000000 : F64)) in *. replace (B2R s + - c) with (B2R s - c) in R by ring. rewrite (Rabs_pos_eq (B2R s - c)) in R by lra.
  unfold uro in R. apply Rabs_le_inv in R. lra.
Qed.
Lemma tol_go : forall s res : F64, fin s = true -> fin res = true -> 2 * B2R res <= B2R s -> smin <= B2R res -> B2R s <= smax ->
  nltb (nsub s (nlit 1 10000000000)) res = false.
Proof.
  intros s res F G E B U. unfold smin, smax in *. destruct lit_tol as [LF LB]. pose proof big_ge as BG.
  destruct (sub_R s (nlit 1 10000000000) F LF) as [F1 E1]. { rewrite Rabs_pos_eq; lra. }
  rewrite ltb_R by auto. apply Rltb_false. rewrite E1. apply rnd_ge_gen; [apply gen_B2R|]. lra.
Qed.

Lemma add_sim : forall m f (res : F64) n n' (p : vec3 F64), (m < f)%nat -> sim n n' -> sized (B2R res * 2 ^ m) n' -> nonnull n' ->
  fin res = true -> smin <= B2R res -> B2R res * 2 ^ m <= smax -> s_finv p ->
  B2R (vx p) <= B2R res * 2 ^ m -> B2R (vy p) <= B2R res * 2 ^ m -> B2R (vz p) <= B2R res * 2 ^ m ->
  exists r r', node_add f res n p = Ret r /\ node_add f (B2R res) n' (rv p) = Ret r' /\ sim r r'.
Proof.
  induction m as [|m IH]; intros f res n n' p L H Z NN FR RL RU FP X Y W; (destruct f as [|f]; [lia|]);
    (destruct n' as [|s' sp' o' ch']; [contradiction|]); (destruct n as [|s sp o ch]; [contradiction|]); cbn [sized] in Z; destruct Z as [-> [-> Z]];
    cbn [sim] in H; destruct H as [F1 [F2 [E1 [E2 [SB [EO H]]]]]]; cbn [node_add].
  - rewrite (tol_stop s res) by (auto; rewrite E1; cbn [pow]; auto; try lra; rewrite <- E1; exact SB). do 2 eexists. split; [reflexivity|].
    assert (T : nltb (nsub (B2R res * 2 ^ 0) (nlit 1 10000000000)) (B2R res) = true).
    { cbn [nltb nsub NumR]. apply Rltb_true. cbn [pow]. unfold nlit. cbn [ndiv nofZ NumR]. lra. }
    rewrite T. split; [reflexivity|]. cbn [sim]. split; [exact F1|]. split; [exact F2|]. split; [exact E1|]. split; [exact E2|]. split; [exact SB|]. split; [reflexivity|exact H].
  - assert (P1 : 1 <= 2 ^ m) by (apply pow_R1_Rle; lra). cbn [pow] in *.
    assert (R0 : 0 < B2R res) by (unfold smin in RL; lra). assert (R1 : B2R res <= B2R res * 2 ^ m) by nra.
    rewrite (tol_go s res) by (auto; lra).
    assert (T : nltb (nsub (B2R res * (2 * 2 ^ m)) (nlit 1 10000000000)) (B2R res) = false).
    { cbn [nltb nsub NumR]. apply Rltb_false. unfold nlit. cbn [ndiv nofZ NumR]. unfold smin in RL. lra. }
    rewrite T. destruct FP as [P1' [P2 P3]]. cbv zeta.
    assert (SPE : B2R sp = B2R res * 2 ^ m) by lra. assert (S2 : B2R res * (2 * 2 ^ m) / 2 = B2R res * 2 ^ m) by lra. rewrite S2 in *.
    set (q := B2R res * 2 ^ m) in *.
    assert (AX : forall x : F64, fin x = true -> B2R x <= B2R res * (2 * 2 ^ m) ->
      nltb sp x = nltb q (B2R x) /\ fin (if nltb sp x then nsub x sp else x) = true /\
      B2R (if nltb sp x then nsub x sp else x) = (if nltb q (B2R x) then nsub (B2R x) q else B2R x) /\ B2R (if nltb sp x then nsub x sp else x) <= q).
    { intros x FX BX. rewrite (ltb_R sp x F2 FX), SPE. cbn [nltb NumR nsub]. split; [reflexivity|]. destruct (Rltb q (B2R x)) eqn:C.
      - apply Rltb_true in C. destruct (sub_half x sp FX F2) as [A B]; [unfold smax in RU; subst q; lra|subst q; lra|]. rewrite B, SPE. split; [exact A|]. split; [reflexivity|]. subst q. lra.
      - apply Rltb_false in C. split; [exact FX|]. split; [reflexivity|exact C]. }
    destruct (AX (vx p) P1' X) as [CX [FX [VX BX]]]. destruct (AX (vy p) P2 Y) as [CY [FY [VY BY]]]. destruct (AX (vz p) P3 W) as [CZ [FZ [VZ BZ]]]. clear AX.
    rewrite CX, CY, CZ in *. cbn [rv vx vy vz]. set (bx := nltb q (B2R (vx p))) in *. set (by_ := nltb q (B2R (vy p))) in *. set (bz := nltb q (B2R (vz p))) in *.
    assert (HC : exists c c', match ch bx by_ bz with Null => node_new (ndiv s n2) | Node _ _ _ _ as c => c end = c /\
                              match ch' bx by_ bz with Null => node_new (ndiv (B2R res * (2 * 2 ^ m)) n2) | Node _ _ _ _ as c => c end = c' /\
                              sim c c' /\ sized q c' /\ nonnull c').
    { do 2 eexists. split; [reflexivity|]. split; [reflexivity|]. specialize (H bx by_ bz). specialize (Z bx by_ bz).
      destruct (ch bx by_ bz) as [|a b c d], (ch' bx by_ bz) as [|a' b' c' d']; try contradiction.
      - destruct (half_R s F1) as [HF HE]. { rewrite Rabs_pos_eq; unfold smin, smax in *; lra. }
        assert (EQ : ndiv (B2R res * (2 * 2 ^ m)) n2 = B2R (ndiv s n2)). { rewrite HE, E1. reflexivity. }
        rewrite EQ. split; [|split; [|exact I]].
        + apply sim_new; auto. rewrite HE, E1. fold q in S2. unfold smin, smax in *. subst q. lra.
        + replace q with (B2R (ndiv s n2)) by (rewrite HE, E1; exact S2). apply sized_new.
      - split; [exact H|]. split; [exact Z|exact I]. }
    destruct HC as [c [c' [-> [-> [HC [ZC NC]]]]]].
    destruct (IH f res c c' (V3 (if bx then nsub (vx p) sp else vx p) (if by_ then nsub (vy p) sp else vy p) (if bz then nsub (vz p) sp else vz p))) as [r [r' [A1 [A2 A3]]]]; auto.
    + lia.
    + unfold smax in *. subst q. lra.
    + split; [exact FX|]. split; [exact FY|exact FZ].
    + rewrite A1. cbn [obind]. assert (Q : rv (V3 (if bx then nsub (vx p) sp else vx p) (if by_ then nsub (vy p) sp else vy p) (if bz then nsub (vz p) sp else vz p)) =
         V3 (if bx then nsub (B2R (vx p)) q else B2R (vx p)) (if by_ then nsub (B2R (vy p)) q else B2R (vy p)) (if bz then nsub (B2R (vz p)) q else B2R (vz p))).
      { unfold rv. cbn [vx vy vz]. f_equal; [exact VX|exact VY|exact VZ]. }
      rewrite <- Q, A2. cbn [obind]. do 2 eexists. split; [reflexivity|]. split; [reflexivity|]. cbn [sim].
      split; [exact F1|]. split; [exact F2|]. split; [exact E1|]. split; [exact E2|]. split; [exact SB|]. split; [exact EO|]. apply sim_set; auto.
Qed.

(** ** resolutions *)
Lemma halve_sim : forall f (r req : F64), fin r = true -> smin <= B2R r <= smax -> s_reqF req ->
  match halve f r req with
  | Ret x => halve f (B2R r) (B2R req) = Ret (B2R x) /\ fin x = true /\ smin <= B2R x <= smax
  | Fuel => halve f (B2R r) (B2R req) = Fuel
  | _ => False
  end.
Proof.
  induction f as [|f IH]; intros r req F B Q; cbn [halve]; [reflexivity|]. destruct Q as [FQ Q]. rewrite (ltb_R req r FQ F). cbn [nltb NumR].
  destruct (Rltb (B2R req) (B2R r)) eqn:C.
  - apply Rltb_true in C. unfold smin, smax in *. destruct (half_R r F) as [F2 E2]; [rewrite Rabs_pos_eq; lra|].
    specialize (IH (ndiv r n2) req F2). unfold smin, smax in IH. specialize (IH ltac:(rewrite E2; lra) (conj FQ Q)).
    replace (ndiv (B2R r) n2) with (B2R (ndiv r n2)) by (rewrite E2; reflexivity). exact IH.
  - split; [reflexivity|]. split; [exact F|exact B].
Qed.

(** ** octrees *)
Section Keeps.
  Context {T : Type} {NT : Num T}.
  Definition same (o o1 : octree T) : Prop := o_res o1 = o_res o /\ o_off o1 = o_off o /\ o_max o1 = o_max o /\ o_size o1 = o_size o /\ o_root o1 = o_root o.
  Lemma mesh_same : forall (o : octree T) m o1, oct_mesh o = Ret (m, o1) -> same o o1.
  Proof.
    intros o m o1 H. unfold oct_mesh in H. destruct (mesh_empty _).
    - destruct (filterOverlapping _) as [m'| | |]; cbn [obind] in H; try discriminate. injection H as _ <-. repeat split.
    - injection H as _ <-. repeat split.
  Qed.
  Lemma bbox_same : forall (o : octree T) b o1, oct_bbox o = Ret (b, o1) -> same o o1.
  Proof.
    intros o b o1 H. unfold oct_bbox in H. destruct (s_bbv _).
    - destruct (shape_bbox _ _) as [b' s]. injection H as _ <-. repeat split.
    - destruct (oct_mesh o) as [[m o2]| | |] eqn:E; cbn [obind] in H; try discriminate. apply mesh_same in E. destruct (shape_bbox _ _) as [b' s]. injection H as _ <-. exact E.
  Qed.
  Lemma add_same : forall f (o : octree T) p o1, oct_add f o p = Ret o1 -> exists n, node_add f (o_res o) (o_root o) (vsub p (o_off o)) = Ret n /\
    o_res o1 = o_res o /\ o_off o1 = o_off o /\ o_max o1 = o_max o /\ o_size o1 = o_size o /\ o_root o1 = n.
  Proof. intros f o p o1 H. unfold oct_add in H. destruct (node_add _ _ _ _) as [n| | |]; cbn [obind] in H; try discriminate. injection H as <-. exists n. repeat split. Qed.
  Lemma res_same : forall f (o : octree T) r o1, oct_setRes f o r = Ret o1 -> halve f (o_size o) r = Ret (o_res o1) /\
    o_off o1 = o_off o /\ o_max o1 = o_max o /\ o_size o1 = o_size o /\ o_root o1 = o_root o.
  Proof. intros f o r o1 H. unfold oct_setRes in H. destruct (halve _ _ _) as [x| | |]; cbn [obind] in H; try discriminate. injection H as <-. repeat split. Qed.
End Keeps.

Record osim (S : F64) (o : octree F64) (o' : octree R) : Prop := {
  os_size : o_size o = S;
  os_off : o_off o = V3 (ndiv (nopp S) n2) (ndiv (nopp S) n2) (ndiv (nopp S) n2);
  os_max : o_max o = V3 (ndiv S n2) (ndiv S n2) (ndiv S n2);
  os_fin : fin (o_res o) = true;
  os_res : B2R (o_res o) = o_res o';
  os_bnd : smin <= o_res o' <= smax;
  os_root : sim (o_root o) (o_root o')
}.
Lemma side_smin : forall S, s_sideF S -> fin S = true /\ smin <= B2R S <= smax /\ 0 < B2R S /\ 1 / 1000000000 <= B2R S.
Proof. intros S [F B]. split; [exact F|]. unfold smin, smax. lra. Qed.
Lemma corner_R : forall S, s_sideF S -> (fin (ndiv (nopp S) n2) = true /\ B2R (ndiv (nopp S) n2) = - B2R S / 2) /\ (fin (ndiv S n2) = true /\ B2R (ndiv S n2) = B2R S / 2).
Proof.
  intros S OK. destruct (side_smin S OK) as [F [B [P _]]]. unfold smin, smax in B. destruct (opp_R S F) as [FO EO]. split.
  - destruct (half_R (nopp S) FO) as [A E]; [rewrite EO, Rabs_Ropp, Rabs_pos_eq; lra|]. split; [exact A|]. rewrite E, EO. reflexivity.
  - apply half_R; auto. rewrite Rabs_pos_eq; lra.
Qed.
(** the point that a double octree really stores *)
Definition stored (S : F64) (p : vec3 F64) : vec3 R :=
  let l := ndiv (nopp S) n2 in
  V3 (B2R (nsub (vx p) l) + - B2R S / 2) (B2R (nsub (vy p) l) + - B2R S / 2) (B2R (nsub (vz p) l) + - B2R S / 2).
Lemma stored1 : forall S (x : F64), s_sideF S -> fin x = true -> - B2R S / 2 <= B2R x <= B2R S / 2 ->
  let y := nsub x (ndiv (nopp S) n2) in fin y = true /\ 0 <= B2R y <= B2R S /\ Rabs (B2R y + - B2R S / 2 - B2R x) <= uro * B2R S.
Proof.
  intros S x OK FX B y. destruct (side_smin S OK) as [F [BS [P _]]]. destruct (corner_R S OK) as [[FL EL] _]. pose proof big_ge. unfold smin, smax in BS.
  destruct (sub_R x (ndiv (nopp S) n2) FX FL) as [FY EY]. { rewrite EL, Rabs_pos_eq; lra. }
  rewrite EL in EY. split; [exact FY|]. fold y in EY. split.
  - rewrite EY. split; [apply rnd_ge_gen; [apply gen_0|lra]|apply rnd_le_gen; [apply gen_B2R|lra]].
  - replace (B2R y + - B2R S / 2 - B2R x) with (B2R y - (B2R x + B2R S / 2)) by lra. rewrite EY.
    assert (G : gen (B2R S / 2)). { destruct (corner_R S OK) as [_ [_ <-]]. apply gen_B2R. }
    replace (B2R x - - B2R S / 2) with (B2R x + B2R S / 2) by lra. eapply Rle_trans; [apply rnd_plus; [apply gen_B2R|exact G]|].
    apply uro_le. rewrite Rabs_pos_eq; lra.
Qed.
Lemma stored_ok : forall S p, s_sideF S -> s_finv p -> s_in_box (s_low (B2R S)) (s_high (B2R S)) (rv p) ->
  let d := vsub p (V3 (ndiv (nopp S) n2) (ndiv (nopp S) n2) (ndiv (nopp S) n2)) in
  s_finv d /\ rv d = vsub (stored S p) (off_of (B2R S)) /\ (0 <= B2R (vx d) <= B2R S /\ 0 <= B2R (vy d) <= B2R S /\ 0 <= B2R (vz d) <= B2R S) /\
  s_close (uro * B2R S) (stored S p) (rv p) /\ s_in_box (off_of (B2R S)) (max_of (B2R S)) (stored S p).
Proof.
  intros S p OK [F1 [F2 F3]] [B1 [B2 B3]] d. unfold s_low, s_high, rv in *. cbn [vx vy vz] in *.
  destruct (stored1 S (vx p) OK F1 B1) as [X1 [X2 X3]]. destruct (stored1 S (vy p) OK F2 B2) as [Y1 [Y2 Y3]]. destruct (stored1 S (vz p) OK F3 B3) as [Z1 [Z2 Z3]].
  unfold d, s_finv, s_close, s_in_box, vsub, stored, off_of, max_of. cbn [vx vy vz nsub NumR].
  split; [split; [exact X1|split; [exact Y1|exact Z1]]|]. split; [f_equal; cbn [nsub NumR]; lra|]. split; [auto|]. split; [auto|]. lra.
Qed.

Lemma res_level : forall S o o' A, s_sideF S -> osim S o o' -> octs (B2R S) o' A -> exists m, B2R S = B2R (o_res o) * 2 ^ m.
Proof.
  intros S o o' A OK H [I _]. destruct (oi_res _ _ I) as [m M]. exists m. rewrite (os_res _ _ _ H), M. symmetry. apply side_pow.
Qed.
Lemma opp_div2 : forall S, V3 (- S / 2) (- S / 2) (- S / 2) = off_of S.
Proof. reflexivity. Qed.

Lemma add_osim : forall S o o' A p, s_sideF S -> osim S o o' -> octs (B2R S) o' A -> s_finv p -> s_in_box (s_low (B2R S)) (s_high (B2R S)) (rv p) ->
  exists F, forall f, (F <= f)%nat -> exists o1 o1', oct_add f o p = Ret o1 /\ oct_add f o' (stored S p) = Ret o1' /\ osim S o1 o1'.
Proof.
  intros S o o' A p OK H HA FP BP. destruct (res_level _ _ _ _ OK H HA) as [m M]. exists (Datatypes.S m). intros f L.
  destruct HA as [I _]. destruct H as [H1 H2 H3 H4 H5 H6 H7]. destruct (stored_ok S p OK FP BP) as [D1 [D2 [[DX [DY DZ]] _]]].
  destruct (side_smin S OK) as [_ [SB _]].
  destruct (add_sim m f (o_res o) (o_root o) (o_root o') (vsub p (o_off o))) as [r [r' [E1 [E2 E3]]]]; auto.
  - rewrite <- M. apply I.
  - apply I.
  - rewrite H5. apply H6.
  - rewrite <- M. apply SB.
  - rewrite H2. exact D1.
  - rewrite <- M, H2. apply DX.
  - rewrite <- M, H2. apply DY.
  - rewrite <- M, H2. apply DZ.
  - rewrite H2, D2, H5 in E2. unfold oct_add. rewrite E1, (oi_off _ _ I), E2. cbn [obind]. do 2 eexists. split; [reflexivity|]. split; [reflexivity|].
    constructor; cbn [o_size o_off o_max o_res o_root]; auto.
Qed.
Lemma osim_same : forall S o o1 o', osim S o o' -> same o o1 -> osim S o1 o'.
Proof.
  intros S o o1 o' [H1 H2 H3 H4 H5 H6 H7] [E1 [E2 [E3 [E4 E5]]]]. constructor.
  - rewrite E4. exact H1.
  - rewrite E2. exact H2.
  - rewrite E3. exact H3.
  - rewrite E1. exact H4.
  - rewrite E1. exact H5.
  - exact H6.
  - rewrite E5. exact H7.
Qed.
Lemma step_osim : forall f S o o' A op o1, s_sideF S -> osim S o o' -> octs (B2R S) o' A -> s_opF S op -> oct_step f o op = Ret o1 ->
  exists op' o1' A1, s_op_close (uro * B2R S) op op' /\ osim S o1 o1' /\ octs (B2R S) o1' A1 /\
    s_hist (B2R S) (off_of (B2R S)) (o_res o') A [op'] (o_res o1') A1.
Proof.
  intros f S o o' A op o1 OK H HA OP E. pose proof (side_smin S OK) as [FS [SB [SP _]]]. destruct op as [p| |r|r t0 t1| | |m|]; cbn [oct_step s_opF] in *.
  - destruct OP as [FP BP]. destruct (add_osim S o o' A p OK H HA FP BP) as [F AD]. destruct (AD (f + F)%nat ltac:(lia)) as [o2 [o2' [E1 [E2 E3]]]].
    rewrite (octadd_fuel f (f + F)%nat o p o1 ltac:(lia) E) in E1. assert (EQ : o2 = o1) by congruence. rewrite EQ in E3. clear EQ E1 o2.
    exists (OAdd (stored S p)), o2'. eexists. split; [cbn [s_op_close]; apply (stored_ok S p OK FP BP)|]. split; [exact E3|].
    assert (RR : o_res o2' = o_res o') by (destruct (add_same _ _ _ _ E2) as [n [_ [R _]]]; exact R).
    assert (HH : s_hist (B2R S) (off_of (B2R S)) (o_res o') A [OAdd (stored S p)] (o_res o') (fun k i j l => A k i j l \/
       (s_level (B2R S) (o_res o') k /\ s_cell (B2R S) k (s_diff (stored S p) (off_of (B2R S))) i j l))) by (constructor; constructor).
    rewrite RR. split; [|exact HH]. apply (octs_run (f + F)%nat (B2R S) [OAdd (stored S p)] o' A _ _ o2' SP HA HH). cbn [oct_run oct_step]. rewrite E2. reflexivity.
  - exists OClear, (oct_clear o'). eexists. split; [exact I|].
    assert (HH : s_hist (B2R S) (off_of (B2R S)) (o_res o') A [OClear] (o_res o') (fun _ _ _ _ => False)) by (constructor; constructor).
    split; [|split; [|exact HH]].
    + assert (EO : oct_clear o = o1) by congruence. rewrite <- EO. destruct H as [H1 H2 H3 H4 H5 H6 H7]. constructor; cbn [oct_clear o_size o_off o_max o_res o_root]; auto.
      destruct HA as [I _]. rewrite (oi_size _ _ I), H1. apply sim_new; auto.
    + apply (octs_run f (B2R S) [OClear] o' A _ _ (oct_clear o') SP HA HH). reflexivity.
  - destruct (res_same _ _ _ _ E) as [EH [E2 [E3 [E4 E5]]]]. rewrite (os_size _ _ _ H) in EH, E4. pose proof (halve_sim f S r FS SB OP) as HS. rewrite EH in HS. destruct HS as [HS [FX BX]].
    assert (ES : oct_setRes f o' (B2R r) = Ret (Oct (o_base o') (B2R (o_res o1)) (o_off o') (o_max o') (o_size o') (o_root o') (o_mesh o'))).
    { unfold oct_setRes. destruct HA as [I _]. rewrite (oi_size _ _ I), HS. reflexivity. }
    assert (RS : s_resolution (B2R S) (B2R r) (B2R (o_res o1))).
    { destruct (halve_side _ _ _ _ HS SP) as [m [A1 [A2 A3]]]. rewrite A1. apply resolution_spec; auto. rewrite <- A1. exact A2. }
    assert (HH : s_hist (B2R S) (off_of (B2R S)) (o_res o') A [OSetRes (B2R r)] (B2R (o_res o1)) A) by (econstructor; [exact RS|constructor]).
    exists (OSetRes (B2R r)), (Oct (o_base o') (B2R (o_res o1)) (o_off o') (o_max o') (o_size o') (o_root o') (o_mesh o')), A. split; [reflexivity|]. split; [|split; [|exact HH]].
    + destruct H as [H1 H2 H3 H4 H5 H6 H7]. constructor; cbn [o_size o_off o_max o_res o_root]; auto.
      * rewrite E2. exact H2.
      * rewrite E3. exact H3.
      * rewrite E5. exact H7.
    + apply (octs_run f (B2R S) [OSetRes (B2R r)] o' A _ _ _ SP HA HH). cbn [oct_run oct_step]. rewrite ES. reflexivity.
  - contradiction.
  - destruct (oct_mesh o) as [[m o2]| | |] eqn:EM; cbn [obind snd] in E; try discriminate. assert (EO : o2 = o1) by congruence. rewrite EO in EM. apply mesh_same in EM.
    exists OGetMesh, o', A. split; [exact I|]. split; [apply (osim_same S o); auto|]. split; [exact HA|]. constructor. constructor.
  - destruct (oct_bbox o) as [[m o2]| | |] eqn:EM; cbn [obind snd] in E; try discriminate. assert (EO : o2 = o1) by congruence. rewrite EO in EM. apply bbox_same in EM.
    exists OGetBBox, o', A. split; [exact I|]. split; [apply (osim_same S o); auto|]. split; [exact HA|]. constructor. constructor.
  - exists (OSetMesh mesh_new), o', A. split; [exact I|]. split; [|split; [exact HA|constructor; constructor]].
    apply (osim_same S o); auto. assert (EO : oct_setMesh o m = o1) by congruence. rewrite <- EO. repeat split.
  - exists OCopy, (oct_copy o'), A. split; [exact I|].
    assert (HH : s_hist (B2R S) (off_of (B2R S)) (o_res o') A [OCopy] (o_res o') A) by (constructor; constructor).
    split; [|split; [|exact HH]].
    + assert (EO : oct_copy o = o1) by congruence. rewrite <- EO. destruct H as [H1 H2 H3 H4 H5 H6 H7]. constructor; cbn [oct_copy o_size o_off o_max o_res o_root]; auto. apply sim_copy, H7.
    + apply (octs_run f (B2R S) [OCopy] o' A _ _ (oct_copy o') SP HA HH). reflexivity.
Qed.
Lemma hist_cons : forall S off res A op res1 A1 ops res2 A2, s_hist S off res A [op] res1 A1 -> s_hist S off res1 A1 ops res2 A2 -> s_hist S off res A (op :: ops) res2 A2.
Proof.
  intros S off res A op res1 A1 ops res2 A2 H K. inversion H; subst;
    match goal with HH : s_hist _ _ _ _ [] _ _ |- _ => inversion HH; subst end; econstructor; eauto.
Qed.
Lemma run_osim : forall f S ops o o' A o1, s_sideF S -> osim S o o' -> octs (B2R S) o' A -> Forall (s_opF S) ops -> oct_run f o ops = Ret o1 ->
  exists ops' o1' A1, Forall2 (s_op_close (uro * B2R S)) ops ops' /\ osim S o1 o1' /\ octs (B2R S) o1' A1 /\
    s_hist (B2R S) (off_of (B2R S)) (o_res o') A ops' (o_res o1') A1.
Proof.
  intros f S ops. induction ops as [|op ops IH]; intros o o' A o1 OK H HA OPS E; cbn [oct_run] in E.
  - assert (EO : o = o1) by congruence. rewrite <- EO. exists [], o', A. split; [constructor|]. split; [exact H|]. split; [exact HA|constructor].
  - destruct (oct_step f o op) as [o2| | |] eqn:ES; cbn [obind] in E; try discriminate. inversion OPS as [|? ? O1 O2]; subst.
    destruct (step_osim f S o o' A op o2 OK H HA O1 ES) as [op' [o2' [A2 [C1 [C2 [C3 C4]]]]]].
    destruct (IH o2 o2' A2 o1 OK C2 C3 O2 E) as [ops' [o1' [A1 [D1 [D2 [D3 D4]]]]]]. exists (op' :: ops'), o1', A1.
    split; [constructor; auto|]. split; [exact D2|]. split; [exact D3|]. eapply hist_cons; eauto.
Qed.
Definition none : cells := fun _ _ _ _ => False.
Lemma new_osim : forall f S req o0, s_sideF S -> s_reqF req -> oct_new f S req = Ret o0 ->
  exists o0', oct_new f (B2R S) (B2R req) = Ret o0' /\ osim S o0 o0' /\ octs (B2R S) o0' none /\ s_resolution (B2R S) (B2R req) (o_res o0').
Proof.
  intros f S req o0 OK RQ E. pose proof (side_smin S OK) as [FS [SB [SP _]]]. unfold oct_new in *. cbv zeta in *.
  destruct (res_same _ _ _ _ E) as [EH [E2 [E3 [E4 E5]]]]. cbn [o_size o_off o_max o_root] in EH, E2, E3, E4, E5.
  pose proof (halve_sim f S req FS SB RQ) as HS. rewrite EH in HS. destruct HS as [HS [FX BX]].
  assert (EN : oct_new f (B2R S) (B2R req) = Ret (Oct shape_new (B2R (o_res o0)) (off_of (B2R S)) (max_of (B2R S)) (B2R S) (node_new (B2R S)) mesh_new)).
  { unfold oct_new, oct_setRes. cbn [o_size]. rewrite HS. reflexivity. }
  exists (Oct shape_new (B2R (o_res o0)) (off_of (B2R S)) (max_of (B2R S)) (B2R S) (node_new (B2R S)) mesh_new). split; [exact EN|].
  split; [|split].
  - constructor; cbn [o_res o_root]; auto. rewrite E5. apply sim_new; auto.
  - destruct (oct_new_inv _ _ _ _ SP EN) as [I [_ R]]. split; [exact I|]. split; [|intros ? ? ? ? []]. intros path. cbn [o_root]. split; [intros X; elim (occ_new _ _ X)|intros []].
  - destruct (oct_new_inv _ _ _ _ SP EN) as [_ [R _]]. exact R.
Qed.
