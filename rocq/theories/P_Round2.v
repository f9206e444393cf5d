(** * Rounding errors of transforms *)
From Coq Require Import ZArith Bool Lia Reals Lra Psatz.
From Flocq Require Import Core BinarySingleNaN.
From Verif Require Import Num MathTypes Spec SpecRound P_Round.
Local Open Scope R_scope.

Ltac split_all := repeat match goal with |- _ /\ _ => split end.
Ltac unfin := unfold s_finm, s_finv, s_finq, s_fin, s_boundm, s_bound in *; cbn [vx vy vz rv rm mxx mxy mxz myx myy myz mzx mzy mzz] in *.

Lemma apply_b : forall (t : trans3 F64) (p : vec3 F64) A M N, s_finm (tR t) -> s_finv (MathTypes.tt t) -> s_finv p ->
  s_boundm A (rm (tR t)) -> s_bound M (rv p) -> s_bound N (rv (MathTypes.tt t)) -> A * M <= big / 8 -> N <= big / 8 ->
  s_finv (tapply t p) /\ s_close (13 * uro * (A * M) + uro * N + 7 * eta) (rv (tapply t p)) (s_moved (rm (tR t)) (rv (MathTypes.tt t)) (rv p)).
Proof.
  intros [m t] p A M N FM FT FP BM BP BT H1 H2. cbn [tR MathTypes.tt] in *. unfin.
  destruct FM as [[X1 [X2 X3]] [[Y1 [Y2 Y3]] [Z1 [Z2 Z3]]]], FT as [T1 [T2 T3]], FP as [P1 [P2 P3]].
  destruct BM as [[U1 [U2 U3]] [[V1 [V2 V3]] [W1 [W2 W3]]]], BT as [R1 [R2 R3]], BP as [Q1 [Q2 Q3]].
  destruct (row_b (mxx m) (mxy m) (mxz m) (vx p) (vy p) (vz p) (vx t) A M N) as [A1 B1]; auto.
  destruct (row_b (myx m) (myy m) (myz m) (vx p) (vy p) (vz p) (vy t) A M N) as [A2 B2]; auto.
  destruct (row_b (mzx m) (mzy m) (mzz m) (vx p) (vy p) (vz p) (vz t) A M N) as [A3 B3]; auto.
  unfold s_close, s_moved, s_dot. cbn [vx vy vz rv rm mxx mxy mxz myx myy myz mzx mzy mzz]. split; split_all; assumption.
Qed.
Lemma inverse_b : forall (t : trans3 F64) A N, s_finm (tR t) -> s_finv (MathTypes.tt t) ->
  s_boundm A (rm (tR t)) -> s_bound N (rv (MathTypes.tt t)) -> A * N <= big / 8 ->
  tR (tinverse t) = m3transpose (tR t) /\ s_finv (MathTypes.tt (tinverse t)) /\
  s_close (9 * uro * (A * N) + 6 * eta) (rv (MathTypes.tt (tinverse t)))
    (let m := rm (tR t) in let v := rv (MathTypes.tt t) in V3 (- s_dot (col1 m) v) (- s_dot (col2 m) v) (- s_dot (col3 m) v)).
Proof.
  intros [m t] A N FM FT BM BT H1. cbn [tR MathTypes.tt tinverse] in *. split; [reflexivity|]. unfin.
  destruct FM as [[X1 [X2 X3]] [[Y1 [Y2 Y3]] [Z1 [Z2 Z3]]]], FT as [T1 [T2 T3]].
  destruct BM as [[U1 [U2 U3]] [[V1 [V2 V3]] [W1 [W2 W3]]]], BT as [R1 [R2 R3]].
  destruct (opp_R _ T1) as [O1 E1]. destruct (opp_R _ T2) as [O2 E2]. destruct (opp_R _ T3) as [O3 E3].
  assert (S1 : Rabs (B2R (nopp (vx t))) <= N) by (rewrite E1, Rabs_Ropp; auto).
  assert (S2 : Rabs (B2R (nopp (vy t))) <= N) by (rewrite E2, Rabs_Ropp; auto).
  assert (S3 : Rabs (B2R (nopp (vz t))) <= N) by (rewrite E3, Rabs_Ropp; auto).
  destruct (dot3_b (mxx m) (myx m) (mzx m) (nopp (vx t)) (nopp (vy t)) (nopp (vz t)) A N) as [A1 B1]; auto.
  destruct (dot3_b (mxy m) (myy m) (mzy m) (nopp (vx t)) (nopp (vy t)) (nopp (vz t)) A N) as [A2 B2]; auto.
  destruct (dot3_b (mxz m) (myz m) (mzz m) (nopp (vx t)) (nopp (vy t)) (nopp (vz t)) A N) as [A3 B3]; auto.
  rewrite E1, E2, E3 in B1, B2, B3.
  unfold s_close, s_dot, col1, col2, col3. cbn [vx vy vz rv rm mxx mxy mxz myx myy myz mzx mzy mzz]. split; split_all; try assumption.
  - eapply Rle_trans; [|exact B1]. apply Req_le. f_equal. change (dot3 (mxx m) (myx m) (mzx m) (nopp (vx t)) (nopp (vy t)) (nopp (vz t))) with (vx (m3mulv (m3transpose m) (vopp t))). cbn [vx m3mulv m3transpose vopp mxx mxy mxz]. ring.
  - eapply Rle_trans; [|exact B2]. apply Req_le. f_equal. change (dot3 (mxy m) (myy m) (mzy m) (nopp (vx t)) (nopp (vy t)) (nopp (vz t))) with (vy (m3mulv (m3transpose m) (vopp t))). cbn [vy m3mulv m3transpose vopp mxx mxy mxz]. ring.
  - eapply Rle_trans; [|exact B3]. apply Req_le. f_equal. change (dot3 (mxz m) (myz m) (mzz m) (nopp (vx t)) (nopp (vy t)) (nopp (vz t))) with (vz (m3mulv (m3transpose m) (vopp t))). cbn [vz m3mulv m3transpose vopp mxx mxy mxz]. ring.
Qed.

(** nearly orthonormal columns have entries of about 1 at most *)
Lemma col_entry : forall a b c d, Rabs (a * a + b * b + c * c - 1) <= d -> d <= 1 / 1000 -> Rabs a <= 1001 / 1000.
Proof.
  intros a b c d H D. pose proof (Rle_abs (a * a + b * b + c * c - 1)). apply Rabs_le.
  assert (a * a <= 1001 / 1000) by nra. split; nra.
Qed.
Lemma ortho_bound : forall m d, s_ortho d m -> d <= 1 / 1000 -> s_boundm (1001 / 1000) m.
Proof.
  intros m d [[H1 [H2 H3]] _] D. unfold s_dot, col1, col2, col3 in *. cbn [vx vy vz] in *. unfold s_boundm, s_bound. cbn [vx vy vz].
  assert (P : forall a b c, Rabs (a * a + b * b + c * c - 1) <= d -> Rabs a <= 1001 / 1000 /\ Rabs b <= 1001 / 1000 /\ Rabs c <= 1001 / 1000).
  { intros a b c H. split; [apply (col_entry a b c d); auto|]. split; [apply (col_entry b a c d)|apply (col_entry c b a d)]; auto; eapply Rle_trans; [|exact H| |exact H]; apply Req_le; f_equal; ring. }
  destruct (P _ _ _ H1) as [? [? ?]], (P _ _ _ H2) as [? [? ?]], (P _ _ _ H3) as [? [? ?]]. split_all; assumption.
Qed.

Lemma abs3 : forall c x A e, Rabs c <= A -> Rabs x <= e -> Rabs (c * x) <= A * e.
Proof. intros. apply Rabs_mult_le; auto. Qed.
(** one component of the round trip: res = c.q + s + e3 with q = m p + t + e1 and s = - c.t + e2, where c is nearly dual to the columns *)
Lemma trip_component : forall (c1 c2 c3 r11 r12 r13 r21 r22 r23 r31 r32 r33 p1 p2 p3 t1 t2 t3 q1 q2 q3 s res k1 k2 k3 A M d e1 e2 e3 : R),
  Rabs c1 <= A -> Rabs c2 <= A -> Rabs c3 <= A -> Rabs p1 <= M -> Rabs p2 <= M -> Rabs p3 <= M ->
  Rabs (c1 * r11 + c2 * r21 + c3 * r31 - k1) <= d -> Rabs (c1 * r12 + c2 * r22 + c3 * r32 - k2) <= d -> Rabs (c1 * r13 + c2 * r23 + c3 * r33 - k3) <= d ->
  Rabs (q1 - (r11 * p1 + r12 * p2 + r13 * p3 + t1)) <= e1 -> Rabs (q2 - (r21 * p1 + r22 * p2 + r23 * p3 + t2)) <= e1 ->
  Rabs (q3 - (r31 * p1 + r32 * p2 + r33 * p3 + t3)) <= e1 ->
  Rabs (s - - (c1 * t1 + c2 * t2 + c3 * t3)) <= e2 -> Rabs (res - (c1 * q1 + c2 * q2 + c3 * q3 + s)) <= e3 ->
  Rabs (res - (k1 * p1 + k2 * p2 + k3 * p3)) <= 3 * (A * e1) + e2 + e3 + 3 * (d * M).
Proof.
  intros c1 c2 c3 r11 r12 r13 r21 r22 r23 r31 r32 r33 p1 p2 p3 t1 t2 t3 q1 q2 q3 s res k1 k2 k3 A M d e1 e2 e3 C1 C2 C3 P1 P2 P3 D1 D2 D3 Q1 Q2 Q3 S E.
  replace (res - _) with ((res - (c1 * q1 + c2 * q2 + c3 * q3 + s)) + ((s - - (c1 * t1 + c2 * t2 + c3 * t3)) +
    ((c1 * (q1 - (r11 * p1 + r12 * p2 + r13 * p3 + t1)) + (c2 * (q2 - (r21 * p1 + r22 * p2 + r23 * p3 + t2)) + c3 * (q3 - (r31 * p1 + r32 * p2 + r33 * p3 + t3)))) +
     ((c1 * r11 + c2 * r21 + c3 * r31 - k1) * p1 + ((c1 * r12 + c2 * r22 + c3 * r32 - k2) * p2 + (c1 * r13 + c2 * r23 + c3 * r33 - k3) * p3))))) by ring.
  eapply Rle_trans.
  - apply Rabs_plus_le; [exact E|]. apply Rabs_plus_le; [exact S|]. apply Rabs_plus_le.
    + apply Rabs_plus_le; [apply Rabs_mult_le; [exact C1|exact Q1]|]. apply Rabs_plus_le; apply Rabs_mult_le; [exact C2|exact Q2|exact C3|exact Q3].
    + apply Rabs_plus_le; [apply Rabs_mult_le; [exact D1|exact P1]|]. apply Rabs_plus_le; apply Rabs_mult_le; [exact D2|exact P2|exact D3|exact P3].
  - lra.
Qed.
Lemma image_bound : forall m t p A M N, s_boundm A m -> s_bound N t -> s_bound M p -> s_bound (3 * (A * M) + N) (s_moved m t p).
Proof.
  intros m t p A M N [[U1 [U2 U3]] [[V1 [V2 V3]] [W1 [W2 W3]]]] [T1 [T2 T3]] [P1 [P2 P3]]. cbn [vx vy vz] in *. unfold s_moved, s_dot, s_bound. cbn [vx vy vz].
  assert (L : forall a b c x y z t, Rabs a <= A -> Rabs b <= A -> Rabs c <= A -> Rabs x <= M -> Rabs y <= M -> Rabs z <= M -> Rabs t <= N ->
    Rabs (a * x + b * y + c * z + t) <= 3 * (A * M) + N).
  { intros. eapply Rle_trans; [apply Rabs_plus_le; [apply Rabs_plus_le; [apply Rabs_plus_le|]|]|].
    - apply Rabs_mult_le; eassumption. - apply Rabs_mult_le; eassumption. - apply Rabs_mult_le; eassumption. - eassumption. - lra. }
  split_all; apply L; assumption.
Qed.
Lemma close_bound : forall e B p q, s_close e p q -> s_bound B q -> s_bound (B + e) p.
Proof. intros e B p q [C1 [C2 C3]] [D1 [D2 D3]]. unfold s_bound. split_all; eapply Rabs_close; eassumption. Qed.
Lemma ortho_abs : forall m d, s_ortho d m -> 0 <= d.
Proof. intros m d [[H _] _]. eapply Rle_trans; [apply Rabs_pos|exact H]. Qed.

Lemma round_trip : forall (t : trans3 F64) (p : vec3 F64) d M N, s_finm (tR t) -> s_finv (MathTypes.tt t) -> s_finv p ->
  s_ortho d (rm (tR t)) -> d <= 1 / 1000 -> s_bound M (rv p) -> s_bound N (rv (MathTypes.tt t)) -> M <= big / 1024 -> N <= big / 1024 ->
  s_finv (tapply (tinverse t) (tapply t p)) /\
  s_close (3 * (d * M) + 80 * uro * (M + N) + 40 * eta) (rv (tapply (tinverse t) (tapply t p))) (rv p).
Proof.
  intros t p d M N FM FT FP OR D BP BT HM HN. pose proof big_pos as BG. pose proof eta_pos as EP. pose proof eta_big as EB.
  pose proof (ortho_bound _ _ OR D) as BM. set (A := 1001 / 1000) in *.
  assert (M0 : 0 <= M) by (destruct BP as [B _]; eapply Rle_trans; [apply Rabs_pos|exact B]).
  assert (N0 : 0 <= N) by (destruct BT as [B _]; eapply Rle_trans; [apply Rabs_pos|exact B]).
  destruct (apply_b t p A M N) as [F1 C1]; auto; [unfold A; lra|lra|].
  destruct (inverse_b t A N) as [IR [F2 C2]]; auto; [unfold A; lra|].
  set (e1 := 13 * uro * (A * M) + uro * N + 7 * eta) in *. set (e2 := 9 * uro * (A * N) + 6 * eta) in *.
  assert (BQ := close_bound _ _ _ _ C1 (image_bound _ _ _ _ _ _ BM BT BP)).
  assert (BS : s_bound (3 * (A * N) + e2) (rv (MathTypes.tt (tinverse t)))).
  { eapply close_bound; [exact C2|]. cbv zeta. destruct BM as [[U1 [U2 U3]] [[V1 [V2 V3]] [W1 [W2 W3]]]], BT as [T1 [T2 T3]]. cbn [vx vy vz] in *.
    unfold s_dot, col1, col2, col3, s_bound. cbn [vx vy vz]. rewrite !Rabs_Ropp.
    assert (L : forall a b c x y z, Rabs a <= A -> Rabs b <= A -> Rabs c <= A -> Rabs x <= N -> Rabs y <= N -> Rabs z <= N -> Rabs (a * x + b * y + c * z) <= 3 * (A * N)).
    { intros. eapply Rle_trans; [apply Rabs_plus_le; [apply Rabs_plus_le|]; apply Rabs_mult_le; eassumption|]. lra. }
    split_all; apply L; assumption. }
  set (M' := 3 * (A * M) + N + e1) in *. set (N' := 3 * (A * N) + e2) in *.
  assert (FI : s_finm (tR (tinverse t))). { rewrite IR. unfin. cbn [m3transpose mxx mxy mxz myx myy myz mzx mzy mzz]. tauto. }
  assert (BI : s_boundm A (rm (tR (tinverse t)))). { rewrite IR. unfin. cbn [m3transpose mxx mxy mxz myx myy myz mzx mzy mzz]. tauto. }
  destruct (apply_b (tinverse t) (tapply t p) A M' N') as [F3 C3]; auto.
  { unfold M', e1, A, uro. lra. } { unfold N', e2, A, uro. lra. }
  split; [exact F3|]. rewrite IR in C3. set (e3 := 13 * uro * (A * M') + uro * N' + 7 * eta) in *.
  assert (TOT : 3 * (A * e1) + e2 + e3 + 3 * (d * M) <= 3 * (d * M) + 80 * uro * (M + N) + 40 * eta) by (unfold e3, M', N', e1, e2, A, uro; lra).
  destruct t as [m v]. cbn [tR MathTypes.tt] in *. destruct OR as [[O1 [O2 O3]] [O4 [O5 O6]]].
  assert (OS : forall a b, Rabs a <= d -> a = b -> Rabs (b - 0) <= d) by (intros a b H <-; rewrite Rminus_0_r; auto).
  destruct C1 as [C11 [C12 C13]], C2 as [C21 [C22 C23]], C3 as [C31 [C32 C33]]. destruct BM as [[U1 [U2 U3]] [[V1 [V2 V3]] [W1 [W2 W3]]]], BP as [P1 [P2 P3]].
  unfold s_moved, s_dot, col1, col2, col3 in *. cbn [vx vy vz rv rm m3transpose mxx mxy mxz myx myy myz mzx mzy mzz] in *.
  assert (D01 : Rabs (B2R (mxx m) * B2R (mxy m) + B2R (myx m) * B2R (myy m) + B2R (mzx m) * B2R (mzy m) - 0) <= d) by (eapply OS; [exact O4|ring]).
  assert (D02 : Rabs (B2R (mxx m) * B2R (mxz m) + B2R (myx m) * B2R (myz m) + B2R (mzx m) * B2R (mzz m) - 0) <= d) by (eapply OS; [exact O5|ring]).
  assert (D10 : Rabs (B2R (mxy m) * B2R (mxx m) + B2R (myy m) * B2R (myx m) + B2R (mzy m) * B2R (mzx m) - 0) <= d) by (eapply OS; [exact O4|ring]).
  assert (D12 : Rabs (B2R (mxy m) * B2R (mxz m) + B2R (myy m) * B2R (myz m) + B2R (mzy m) * B2R (mzz m) - 0) <= d) by (eapply OS; [exact O6|ring]).
  assert (D20 : Rabs (B2R (mxz m) * B2R (mxx m) + B2R (myz m) * B2R (myx m) + B2R (mzz m) * B2R (mzx m) - 0) <= d) by (eapply OS; [exact O5|ring]).
  assert (D21 : Rabs (B2R (mxz m) * B2R (mxy m) + B2R (myz m) * B2R (myy m) + B2R (mzz m) * B2R (mzy m) - 0) <= d) by (eapply OS; [exact O6|ring]).
  unfold s_close. cbn [vx vy vz rv]. split_all.
  - replace (B2R (vx p)) with (1 * B2R (vx p) + 0 * B2R (vy p) + 0 * B2R (vz p)) by ring. eapply Rle_trans; [|exact TOT].
    eapply trip_component; [exact U1|exact V1|exact W1|exact P1|exact P2|exact P3|exact O1|exact D01|exact D02|exact C11|exact C12|exact C13|exact C21|exact C31].
  - replace (B2R (vy p)) with (0 * B2R (vx p) + 1 * B2R (vy p) + 0 * B2R (vz p)) by ring. eapply Rle_trans; [|exact TOT].
    eapply trip_component; [exact U2|exact V2|exact W2|exact P1|exact P2|exact P3|exact D10|exact O2|exact D12|exact C11|exact C12|exact C13|exact C22|exact C32].
  - replace (B2R (vz p)) with (0 * B2R (vx p) + 0 * B2R (vy p) + 1 * B2R (vz p)) by ring. eapply Rle_trans; [|exact TOT].
    eapply trip_component; [exact U3|exact V3|exact W3|exact P1|exact P2|exact P3|exact D20|exact D21|exact O3|exact C11|exact C12|exact C13|exact C23|exact C33].
Qed.
