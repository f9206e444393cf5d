(** * Balls and edges of meshes on doubles *)
From Coq Require Import ZArith NArith List Bool Lia Reals Lra Psatz.
From Flocq Require Import Core BinarySingleNaN.
From Verif Require Import Num MathTypes Outcome Mesh Spec SpecQuery SpecRound ShapeQuery P_Tac P_Math P_Round P_OctF P_QuatF P_Libm P_InsideF P_HeightF P_Query4 P_CompF1 P_RangeF.
Import ListNotations.
Local Open Scope R_scope.
Local Notation fin := (is_finite (prec := 53) (emax := 1024)).

Lemma eta80 : eta <= / 10 ^ 90.
Proof.
  apply Rle_trans with (bpow radix2 (-300)); [apply eta_le; lia|]. rewrite bpow_powerRZ. change (powerRZ (IZR radix2) (-300)) with (/ 2 ^ 300). apply Rinv_le_contravar; lra.
Qed.
Section Dots.
  Context (M : R) (MB : 1 <= M <= 1000000).
  (** a rounded difference: finite, at most 2M (1 + u), within u of itself *)
  Definition diffd (x : F64) (X : R) : Prop := fin x = true /\ Rabs X <= 2 * M /\ Rabs (B2R x - X) <= uro * Rabs X.
  Lemma diffd_sub : forall v w : F64, fin v = true -> fin w = true -> Rabs (B2R v) <= M -> Rabs (B2R w) <= M -> diffd (nsub v w) (B2R v - B2R w).
  Proof.
    intros v w FV FW BV BW. assert (B : Rabs (B2R v - B2R w) <= 2 * M) by (apply Rabs_le_inv in BV, BW; apply Rabs_le; lra).
    destruct (sub_R v w FV FW) as [F E]; [apply big30; lra|]. split; auto. split; auto. rewrite E.
    replace (B2R v - B2R w) with (B2R v + - B2R w) by ring. apply rnd_plus; [apply gen_B2R|apply generic_format_opp, gen_B2R].
  Qed.
  Lemma diffd_b : forall x X, diffd x X -> Rabs (B2R x) <= 201 / 100 * M /\ Rabs (B2R x - X) <= 2 * uro * M.
  Proof.
    intros x X [F [B H]]. pose proof uro_pos. pose proof u_small. assert (G : Rabs (B2R x - X) <= 2 * uro * M) by (eapply Rle_trans; [exact H|]; apply Rle_trans with (uro * (2 * M)); [apply Rmult_le_compat_l; lra|lra]).
    split; auto. assert (UM : uro * M <= / 1000000000000 * M) by (apply Rmult_le_compat_r; lra). pose proof (Rabs_close _ _ _ _ G B). lra.
  Qed.
  Lemma prod_d : forall x X y Y, diffd x X -> diffd y Y -> Rabs (B2R x * B2R y - X * Y) <= 805 / 100 * (uro * (M * M)).
  Proof.
    intros x X y Y DX DY. destruct (diffd_b x X DX) as [BX EX]. destruct (diffd_b y Y DY) as [_ EY]. destruct DY as [_ [BY _]]. pose proof uro_pos.
    replace (B2R x * B2R y - X * Y) with (B2R x * (B2R y - Y) + (B2R x - X) * Y) by ring.
    eapply Rle_trans; [apply Rabs_plus_le; [apply Rabs_mult_le; [exact BX|exact EY]|apply Rabs_mult_le; [exact EX|exact BY]]|]. assert (0 <= uro * (M * M)) by (apply Rmult_le_pos; nra). lra.
  Qed.
  Definition diffv (v : vec3 F64) (w : vec3 R) : Prop := diffd (vx v) (vx w) /\ diffd (vy v) (vy w) /\ diffd (vz v) (vz w).
  Lemma diffv_sub : forall v w : vec3 F64, s_finv v -> s_finv w -> s_bound M (rv v) -> s_bound M (rv w) -> diffv (vsub v w) (s_diff (rv v) (rv w)).
  Proof. intros v w [A [B C]] [A' [B' C']] [X [Y Z]] [X' [Y' Z']]. unfold rv in *. cbn [vx vy vz] in *. split; [|split]; apply diffd_sub; auto. Qed.
  Lemma UM0 : uro <= uro * (M * M) /\ uro * (M * M) <= / 1000000000000 * (M * M) /\ 1 <= M * M <= 1000000000000.
  Proof. pose proof uro_pos. pose proof u_small. assert (G : 1 <= M * M <= 1000000000000) by nra. split; [|split; auto]; [replace uro with (uro * 1) at 1 by ring; apply Rmult_le_compat_l; lra|apply Rmult_le_compat_r; lra]. Qed.
  Lemma dotd : forall v w v' w', diffv v v' -> diffv w w' -> near (62 * (uro * (M * M))) (vdot v w) (s_dot v' w').
  Proof.
    intros v w v' w' [A [B C]] [A' [B' C']]. destruct UM0 as [U1 [U2 U3]]. pose proof eta_tiny as ET. pose proof uro_pos as UP.
    pose proof (prod_d _ _ _ _ A A') as P1. pose proof (prod_d _ _ _ _ B B') as P2. pose proof (prod_d _ _ _ _ C C') as P3.
    destruct (diffd_b _ _ A) as [A1 _]. destruct (diffd_b _ _ B) as [B1 _]. destruct (diffd_b _ _ C) as [C1 _]. destruct (diffd_b _ _ A') as [A2 _]. destruct (diffd_b _ _ B') as [B2 _]. destruct (diffd_b _ _ C') as [C2 _].
    destruct A as [FA _], B as [FB _], C as [FC _], A' as [FA' _], B' as [FB' _], C' as [FC' _].
    destruct (dot3_b (vx v) (vy v) (vz v) (vx w) (vy w) (vz w) (201 / 100 * M) (201 / 100 * M)) as [F E]; auto.
    { apply Rle_trans with (10 ^ 30 / 8); [|pose proof big_ge; lra]. nra. }
    split; [exact F|]. change (vdot v w) with (dot3 (vx v) (vy v) (vz v) (vx w) (vy w) (vz w)). unfold s_dot.
    match goal with |- Rabs (?a - ?b) <= _ => replace (a - b) with ((a - (B2R (vx v) * B2R (vx w) + B2R (vy v) * B2R (vy w) + B2R (vz v) * B2R (vz w))) + ((B2R (vx v) * B2R (vx w) - vx v' * vx w') + ((B2R (vy v) * B2R (vy w) - vy v' * vy w') + (B2R (vz v) * B2R (vz w) - vz v' * vz w')))) by ring end.
    eapply Rle_trans; [apply Rabs_plus_le; [exact E|apply Rabs_plus_le; [exact P1|apply Rabs_plus_le; [exact P2|exact P3]]]|]. lra.
  Qed.
  (** a squared length is at least the square of each component *)
  Lemma sq_ge : forall x X, diffd x X -> / 10 ^ 18 <= Rabs X -> / 10 ^ 37 <= B2R (nmul x x).
  Proof.
    intros x X D L. destruct (diffd_b _ _ D) as [B _]. destruct D as [F [BX H]]. pose proof u_small as US. pose proof uro_pos as UP. pose proof eta80 as ET.
    assert (X9 : 9 / 10 * / 10 ^ 18 <= Rabs (B2R x)). { assert (G : Rabs X <= Rabs (B2R x) + uro * Rabs X) by (rewrite Rabs_minus_sym in H; pose proof (Rabs_triang (X - B2R x) (B2R x)) as T; replace (X - B2R x + B2R x) with X in T by ring; lra).
      assert (uro * Rabs X <= / 1000000000000 * Rabs X) by (apply Rmult_le_compat_r; [apply Rabs_pos|lra]). lra. }
    assert (SQ : 81 / 100 * / 10 ^ 36 <= B2R x * B2R x). { rewrite <- (Rabs_pos_eq (B2R x * B2R x)) by nra. rewrite Rabs_mult. apply Rle_trans with ((9 / 10 * / 10 ^ 18) * (9 / 10 * / 10 ^ 18)); [right; field|apply Rmult_le_compat; lra]. }
    assert (SB : B2R x * B2R x <= 10 ^ 29). { rewrite <- (Rabs_pos_eq (B2R x * B2R x)) by nra. eapply Rle_trans; [apply Rabs_mult_le; [exact B|exact B]|]. nra. }
    destruct (mul_R x x F F) as [FM EM]; [apply big30; rewrite Rabs_pos_eq by nra; auto|]. pose proof (rnd_err (B2R x * B2R x)) as G. rewrite <- EM, (Rabs_pos_eq (B2R x * B2R x)) in G by nra. apply Rabs_le_inv in G.
    assert (uro * (B2R x * B2R x) <= / 1000000000000 * (B2R x * B2R x)) by (apply Rmult_le_compat_r; lra). lra.
  Qed.
  Lemma sq_0 : forall x X, diffd x X -> fin (nmul x x) = true /\ 0 <= B2R (nmul x x) <= 5 * (M * M).
  Proof.
    intros x X D. destruct (diffd_b _ _ D) as [B _]. destruct D as [F _]. pose proof u_small as US. pose proof uro_pos as UP. destruct UM0 as [U1 [U2 U3]]. pose proof eta_tiny.
    destruct (mul_b x x _ _ F F B B) as [FM EM]; [apply Rle_trans with (10 ^ 30); [nra|apply big_ge]|]. split; auto. 
    assert (SQ : Rabs (B2R x * B2R x) <= 201 / 100 * M * (201 / 100 * M)) by (apply Rabs_mult_le; auto). rewrite Rabs_pos_eq in SQ by nra. apply Rabs_le_inv in EM. split; [|lra].
    destruct (mul_R x x F F) as [_ EM']; [apply big30; rewrite Rabs_pos_eq by nra; nra|]. rewrite EM'. rewrite <- (rnd_gen 0) by apply generic_format_0. apply rnd_le. nra.
  Qed.
  Lemma add_mono : forall x y : F64, fin x = true -> fin y = true -> 0 <= B2R x <= 20 * (M * M) -> 0 <= B2R y <= 20 * (M * M) -> B2R x <= B2R (nadd x y) /\ B2R y <= B2R (nadd x y).
  Proof.
    intros x y FX FY BX BY. destruct UM0 as [U1 [U2 U3]]. destruct (add_R x y FX FY) as [_ E]; [apply big30; rewrite Rabs_pos_eq by lra; lra|]. rewrite E.
    split; [rewrite <- (rnd_gen (B2R x)) at 1 by apply gen_B2R|rewrite <- (rnd_gen (B2R y)) at 1 by apply gen_B2R]; apply rnd_le; lra.
  Qed.
  Lemma len_ge : forall v w, diffv v w -> / 10 ^ 18 <= Rabs (vx w) \/ / 10 ^ 18 <= Rabs (vy w) \/ / 10 ^ 18 <= Rabs (vz w) -> / 10 ^ 37 <= B2R (vdot v v).
  Proof.
    intros v w [A [B C]] H. destruct (sq_0 _ _ A) as [FA BA]. destruct (sq_0 _ _ B) as [FB BB]. destruct (sq_0 _ _ C) as [FC BC]. destruct UM0 as [U1 [U2 U3]]. pose proof u_small.
    destruct (add_mono _ _ FA FB) as [G1 G2]; [lra|lra|]. destruct (add_b _ _ (5 * (M * M)) (5 * (M * M)) FA FB) as [FS ES]; [rewrite Rabs_pos_eq; lra|rewrite Rabs_pos_eq; lra|apply Rle_trans with (10 ^ 30); [lra|apply big_ge]|]. apply Rabs_le_inv in ES.
    assert (SB : 0 <= B2R (nadd (nmul (vx v) (vx v)) (nmul (vy v) (vy v))) <= 20 * (M * M)) by lra.
    destruct (add_mono _ _ FS FC SB) as [G3 G4]; [lra|]. unfold vdot.
    destruct H as [H|[H|H]]; [pose proof (sq_ge _ _ A H)|pose proof (sq_ge _ _ B H)|pose proof (sq_ge _ _ C H)]; lra.
  Qed.
End Dots.
Definition tolF : F64 := nadd n1 (nlit 1 1000000000).
Lemma tolF_R : fin tolF = true /\ 1 + 9 / 10 ^ 10 <= B2R tolF <= 1 + 11 / 10 ^ 10.
Proof.
  split; [vm_compute; reflexivity|]. rewrite <- (SF2R_B2SF _ _ tolF).
  assert (E : B2SF tolF = SpecFloat.S754_finite false 4503599631874096 (-52)) by (vm_compute; reflexivity). rewrite E. unfold SF2R, F2R. cbn. lra.
Qed.
(** multiplying by the tolerance *)
Lemma tol_mul : forall x : F64, fin x = true -> 0 <= B2R x <= 10 ^ 28 -> fin (nmul x tolF) = true /\ (1 + 8 / 10 ^ 10) * B2R x - eta <= B2R (nmul x tolF).
Proof.
  intros x F B. destruct tolF_R as [FT BT]. pose proof u_small as US. pose proof uro_pos as UP.
  assert (P : 0 <= B2R x * B2R tolF) by (apply Rmult_le_pos; lra). assert (P2 : B2R x * (1 + 9 / 10 ^ 10) <= B2R x * B2R tolF <= B2R x * 2) by (split; apply Rmult_le_compat_l; lra).
  destruct (mul_R x tolF F FT) as [FM EM]; [apply big30; rewrite Rabs_pos_eq by auto; lra|]. split; auto. pose proof (rnd_err (B2R x * B2R tolF)) as G. rewrite <- EM, (Rabs_pos_eq (B2R x * B2R tolF)) in G by auto. apply Rabs_le_inv in G.
  assert (uro * (B2R x * B2R tolF) <= / 1000000000000 * (B2R x * B2R tolF)) by (apply Rmult_le_compat_r; lra). lra.
Qed.
Section Edge.
  Context (M : R) (MB : 1 <= M <= 1000000) (p a b : vec3 F64) (FP : s_finv p) (FA : s_finv a) (FB : s_finv b) (BP : s_bound M (rv p)) (BA : s_bound M (rv a)) (BB : s_bound M (rv b)).
  Context (t : R) (T0 : 0 <= t <= 1) (r2 : F64) (FR : fin r2 = true) (RB : B2R r2 <= 2000000000000).
  Let U := uro * (M * M).
  Context (IN : s_dist2 (rv p) (s_between (rv a) (rv b) t) + 380 * U <= B2R r2).
  Lemma edge_F : nltb (vlength2 (vsub a p)) r2 = true \/ nltb (vlength2 (vsub b p)) r2 = true \/ checkLinesegment p r2 a (vsub b a) = true.
  Proof.
    destruct (UM0 M MB) as [U1 [U2 U3]]. fold U in U1, U2. pose proof uro_pos as UP. pose proof u_small as US.
    set (AB := s_diff (rv b) (rv a)). set (AP := s_diff (rv p) (rv a)).
    assert (DAB : diffv M (vsub b a) AB) by (apply diffv_sub; auto). assert (DAP : diffv M (vsub p a) AP) by (apply diffv_sub; auto).
    pose proof (dotd M MB _ _ _ _ DAB DAP) as ND. pose proof (dotd M MB _ _ _ _ DAB DAB) as NL. pose proof (dotd M MB _ _ _ _ DAP DAP) as N1.
    fold U in ND, NL, N1. set (d := s_dot AB AP) in *. set (Ln := s_dot AB AB) in *. set (d1 := s_dot AP AP) in *.
    assert (SD : s_dist2 (rv p) (s_between (rv a) (rv b) t) = d1 - 2 * t * d + t * t * Ln). { replace (s_between (rv a) (rv b) t) with (s_ray_at (rv a) AB t) by reflexivity. rewrite seg_dist. fold AP. fold d. unfold s_norm2. fold Ln. replace (s_dist2 (rv p) (rv a)) with d1; [ring|]. unfold d1, AP, s_dot, s_diff, s_dist2. cbn [vx vy vz]. ring. }
    rewrite SD in IN. clear SD.
    assert (L0 : 0 <= Ln) by (unfold Ln, s_dot; nra). assert (D10 : 0 <= d1) by (unfold d1, s_dot; nra).
    assert (tL : 0 <= t * t * Ln) by (apply Rmult_le_pos; nra).
    (* the corners *)
    assert (VA : d1 <= d1 - 2 * t * d + t * t * Ln + 248 * U -> nltb (vlength2 (vsub a p)) r2 = true).
    { intros H. assert (DPA : diffv M (vsub a p) (s_diff (rv a) (rv p))) by (apply diffv_sub; auto). destruct (dotd M MB _ _ _ _ DPA DPA) as [F E]. change (vlength2 (vsub a p)) with (vdot (vsub a p) (vsub a p)).
      replace (s_dot (s_diff (rv a) (rv p)) (s_diff (rv a) (rv p))) with d1 in E by (unfold d1, AP, s_dot, s_diff; cbn [vx vy vz]; ring). fold U in E. apply Rabs_le_inv in E. rewrite (ltb_R _ _ F FR). apply Rltb_true. lra. }
    assert (VB : d1 - 2 * d + Ln <= d1 - 2 * t * d + t * t * Ln + 248 * U -> nltb (vlength2 (vsub b p)) r2 = true).
    { intros H. assert (DPB : diffv M (vsub b p) (s_diff (rv b) (rv p))) by (apply diffv_sub; auto). destruct (dotd M MB _ _ _ _ DPB DPB) as [F E]. change (vlength2 (vsub b p)) with (vdot (vsub b p) (vsub b p)).
      replace (s_dot (s_diff (rv b) (rv p)) (s_diff (rv b) (rv p))) with (d1 - 2 * d + Ln) in E by (unfold d1, d, Ln, AP, AB, s_dot, s_diff; cbn [vx vy vz]; ring). fold U in E. apply Rabs_le_inv in E. rewrite (ltb_R _ _ F FR). apply Rltb_true. lra. }
    assert (td : forall c, d <= c -> 0 <= c -> t * d <= c). { intros c H C. destruct (Rle_dec 0 d); [apply Rle_trans with (1 * d); [apply Rmult_le_compat_r; lra|lra]|]. assert (0 <= t * - d) by (apply Rmult_le_pos; lra). lra. }
    (* a tiny edge, or not *)
    assert (CASE : d <= U \/ / 10 ^ 37 <= B2R (vdot (vsub b a) (vsub b a))).
    { destruct (Rlt_le_dec (Rabs (vx AB)) (/ 10 ^ 18)) as [SX|SX]; [|right; apply (len_ge M MB (vsub b a) AB DAB); auto].
      destruct (Rlt_le_dec (Rabs (vy AB)) (/ 10 ^ 18)) as [SY|SY]; [|right; apply (len_ge M MB (vsub b a) AB DAB); auto].
      destruct (Rlt_le_dec (Rabs (vz AB)) (/ 10 ^ 18)) as [SZ|SZ]; [|right; apply (len_ge M MB (vsub b a) AB DAB); auto]. left.
      destruct DAP as [[_ [PX _]] [[_ [PY _]] [_ [PZ _]]]].
      assert (DS : d <= 6 * / 10 ^ 18 * M). { apply Rle_trans with (Rabs d); [apply Rle_abs|]. unfold d, s_dot.
        eapply Rle_trans; [apply Rabs_plus_le; [apply Rabs_plus_le; [apply Rabs_mult_le; [apply Rlt_le; exact SX|exact PX]|apply Rabs_mult_le; [apply Rlt_le; exact SY|exact PY]]|apply Rabs_mult_le; [apply Rlt_le; exact SZ|exact PZ]]|]. lra. }
      assert (UMM : 6 * / 10 ^ 18 * M <= U). { unfold U. replace (uro * (M * M)) with (uro * M * M) by ring. apply Rmult_le_compat_r; [lra|]. apply Rle_trans with (uro * 1); [unfold uro; lra|apply Rmult_le_compat_l; lra]. }
      lra. }
    destruct CASE as [DS|LG]; [left; apply VA; pose proof (td U DS ltac:(lra)); lra|].
    assert (LM : Ln <= 12 * (M * M) /\ d1 <= 12 * (M * M)).
    { assert (SQ : forall x, Rabs x <= 2 * M -> x * x <= 4 * (M * M)). { intros x X. rewrite <- (Rabs_pos_eq (x * x)) by nra. eapply Rle_trans; [apply Rabs_mult_le; eassumption|]. lra. }
      destruct DAB as [[_ [X1 _]] [[_ [Y1 _]] [_ [Z1 _]]]]. destruct DAP as [[_ [X2 _]] [[_ [Y2 _]] [_ [Z2 _]]]].
      apply SQ in X1, Y1, Z1, X2, Y2, Z2. unfold Ln, d1, s_dot. lra. }
    clear DAB DAP. unfold checkLinesegment. change (vlength2 (vsub p a)) with (vdot (vsub p a) (vsub p a)). change (vlength2 (vsub b a)) with (vdot (vsub b a) (vsub b a)). fold tolF.
    set (dh := vdot (vsub b a) (vsub p a)) in *. set (lh := vdot (vsub b a) (vsub b a)) in *. set (d1h := vdot (vsub p a) (vsub p a)) in *. clearbody dh lh d1h.
    destruct ND as [FD ED]. destruct NL as [FL EL]. destruct N1 as [F1 E1]. apply Rabs_le_inv in ED, EL, E1. destruct zero_R as [F0 E0].
    rewrite (ltb_R dh n0 FD F0), E0. destruct (Rltb (B2R dh) 0) eqn:NEG.
    { apply Rltb_true in NEG. left. apply VA. pose proof (td (62 * U) ltac:(lra) ltac:(lra)). lra. }
    apply Rltb_false in NEG. destruct (Rlt_le_dec (B2R lh) (B2R dh)) as [FAR|LE].
    { right. left. apply VB. assert (DL : 0 <= d - Ln + 124 * U) by lra. assert (G : 0 <= (1 - t) * (d - Ln + 124 * U)) by (apply Rmult_le_pos; lra).
      assert (G2 : 0 <= (1 - t) * (1 - t) * Ln) by (apply Rmult_le_pos; nra). assert (G3 : 0 <= t * U) by (apply Rmult_le_pos; lra). lra. }
    right. right. cbv zeta.
    assert (MM : 0 <= B2R dh * B2R dh <= B2R lh * B2R lh) by nra. assert (LS : B2R lh <= 121 / 10 * (M * M)) by lra. assert (LS2 : B2R lh * B2R lh <= 10 ^ 27) by nra.
    destruct (mul_R dh dh FD FD) as [FS ES]; [apply big30; rewrite Rabs_pos_eq by lra; lra|]. pose proof (rnd_err (B2R dh * B2R dh)) as GS. rewrite <- ES, (Rabs_pos_eq (B2R dh * B2R dh)) in GS by lra.
    pose proof eta80 as ET. pose proof eta_pos as EP.
    assert (LP : 0 < B2R lh) by (assert (0 < / 10 ^ 37) by (apply Rinv_0_lt_compat, pow_lt; lra); lra). assert (IL : / B2R lh <= 10 ^ 37). { rewrite <- (Rinv_inv (10 ^ 37)). apply Rinv_le_contravar; [apply Rinv_0_lt_compat, pow_lt; lra|exact LG]. }
    assert (IP : 0 < / B2R lh) by (apply Rinv_0_lt_compat; auto).
    set (Q := B2R dh * B2R dh / B2R lh). assert (Q0 : 0 <= Q) by (unfold Q; apply Rmult_le_pos; lra).
    assert (QL : Q <= B2R lh). { unfold Q. apply (Rmult_le_reg_r (B2R lh)); auto. unfold Rdiv. rewrite Rmult_assoc, Rinv_l by lra. lra. }
    assert (D2 : Rabs (B2R (nmul dh dh) / B2R lh - Q) <= uro * Q + / 10 ^ 53).
    { unfold Q. replace (B2R (nmul dh dh) / B2R lh - B2R dh * B2R dh / B2R lh) with ((B2R (nmul dh dh) - B2R dh * B2R dh) * / B2R lh) by (unfold Rdiv; ring). rewrite Rabs_mult, (Rabs_pos_eq (/ B2R lh)) by lra.
      apply Rle_trans with ((uro * (B2R dh * B2R dh) + eta) * / B2R lh); [apply Rmult_le_compat_r; lra|]. rewrite Rmult_plus_distr_r. apply Rplus_le_compat; [right; unfold Rdiv; ring|].
      apply Rle_trans with (/ 10 ^ 90 * 10 ^ 37); [apply Rmult_le_compat; lra|]. right. field. }
    assert (UQ : uro * Q <= / 1000000000000 * Q) by (apply Rmult_le_compat_r; lra). pose proof (Rabs_close _ _ _ Q D2 ltac:(rewrite Rabs_pos_eq; lra)) as BQ.
    assert (NZ : B2R lh <> 0) by lra.
    destruct (div_R (nmul dh dh) lh FS NZ) as [FQ EQ]; [apply big30; lra|]. pose proof (rnd_err (B2R (nmul dh dh) / B2R lh)) as GQ. rewrite <- EQ in GQ. set (qh := ndiv (nmul dh dh) lh) in *. clearbody qh.
    assert (UB : uro * Rabs (B2R (nmul dh dh) / B2R lh) <= uro * (Q + (uro * Q + / 10 ^ 53))) by (apply Rmult_le_compat_l; lra).
    assert (UUQ : uro * (uro * Q) <= / 1000000000000 * (uro * Q)) by (apply Rmult_le_compat_r; [apply Rmult_le_pos; lra|lra]). assert (U53 : uro * / 10 ^ 53 <= / 10 ^ 53) by (apply Rle_trans with (1 * / 10 ^ 53); [apply Rmult_le_compat_r; lra|lra]).
    assert (UQ0 : 0 <= uro * Q) by (apply Rmult_le_pos; lra).
    assert (QH : Rabs (B2R qh - Q) <= 3 * (uro * Q) + / 10 ^ 52).
    { replace (B2R qh - Q) with ((B2R qh - B2R (nmul dh dh) / B2R lh) + (B2R (nmul dh dh) / B2R lh - Q)) by ring. eapply Rle_trans; [apply Rabs_plus_le; [exact GQ|exact D2]|]. lra. }
    clear GQ D2 UB BQ GS EQ. apply Rabs_le_inv in QH.
    destruct (tol_mul lh FL) as [FT1 GT1]; [lra|].
    assert (R20 : 0 <= d1 - 2 * t * d + t * t * Ln). {
      assert (CS : d * d <= d1 * Ln). { unfold d, d1, Ln, s_dot. clear. destruct AB as [x y z], AP as [x' y' z']. cbn [vx vy vz]. pose proof (Rle_0_sqr (x * y' - y * x')) as G1. pose proof (Rle_0_sqr (x * z' - z * x')) as G2. pose proof (Rle_0_sqr (y * z' - z * y')) as G3. unfold Rsqr in G1, G2, G3. lra. }
      destruct (Req_dec Ln 0) as [LZ|LZ]. - assert (d = 0) by nra. subst. rewrite H, LZ. lra.
      - apply (Rmult_le_reg_l Ln); [lra|]. pose proof (Rle_0_sqr (t * Ln - d)) as SQ0. unfold Rsqr in SQ0. lra. }
    destruct (tol_mul r2 FR) as [FT2 GT2]; [lra|].
    assert (U16 : / 10 ^ 17 <= uro) by (unfold uro; lra).
    apply andb_true_intro. split.
    - rewrite (leb_R _ _ FQ FT1). apply Rleb_true. lra.
    - assert (UL : uro * Q <= 121 / 10 * U). { apply Rle_trans with (uro * (121 / 10 * (M * M))); [apply Rmult_le_compat_l; lra|unfold U; lra]. }
      assert (AB' : Rabs (B2R d1h - B2R qh) <= 25 * (M * M)) by (apply Rabs_le; lra).
      destruct (sub_R d1h qh F1 FQ) as [FS2 ES2]; [apply big30; lra|]. rewrite (leb_R _ _ FS2 FT2). apply Rleb_true. rewrite ES2.
      assert (GR : Rabs (rnd (B2R d1h - B2R qh) - (B2R d1h - B2R qh)) <= 25 * U).
      { eapply Rle_trans; [replace (B2R d1h - B2R qh) with (B2R d1h + - B2R qh) by ring; apply rnd_plus; [apply gen_B2R|apply generic_format_opp, gen_B2R]|]. apply Rle_trans with (uro * (25 * (M * M))); [apply Rmult_le_compat_l; [lra|]|unfold U; lra]. exact AB'. }
      apply Rabs_le_inv in GR.
      assert (MINQ : 2 * t * B2R dh - t * t * B2R lh <= Q). { assert (G : 0 <= (B2R dh - t * B2R lh) * (B2R dh - t * B2R lh) * / B2R lh) by (apply Rmult_le_pos; [apply Rle_0_sqr|lra]).
        replace ((B2R dh - t * B2R lh) * (B2R dh - t * B2R lh) * / B2R lh) with (Q - 2 * t * B2R dh + t * t * B2R lh) in G by (unfold Q; field; lra). lra. }
      assert (TD : 0 <= t * (B2R dh - d + 62 * U)) by (apply Rmult_le_pos; lra). assert (TLn : 0 <= t * t * (62 * U - (B2R lh - Ln))) by (apply Rmult_le_pos; [nra|lra]). assert (TU : t * U <= U) by (apply Rle_trans with (1 * U); [apply Rmult_le_compat_r; lra|lra]).
      assert (TTU : t * t * U <= U) by (apply Rle_trans with (1 * U); [apply Rmult_le_compat_r; [lra|nra]|lra]). lra.
  Qed.
End Edge.
