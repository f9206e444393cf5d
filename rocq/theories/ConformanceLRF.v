(** * The look-up assertions of test/test_lrf.cpp in the model (reals): not theorems about the code but tests of the transcription *)
From Coq Require Import ZArith NArith List Bool Reals Lra Lia.
From Flocq Require Import Core.
From Verif Require Import Num MathTypes Outcome Mesh Laser SpecLaser P_Tac P_Trig P_Laser Props_Laser.
Import ListNotations.
Local Open Scope R_scope.

(** the fixtures, test_lrf.cpp:11-48 *)
Definition lrf_ops (mn mx : R) (n : N) : list (lrf_op R) := [LAngles mn mx; LBeams n; LRange (2/10) 60].
Lemma fixture : forall mn mx, mn < mx -> PI / ((mx - mn) / 8) < IZR 4294967296 -> exists l, lrf_run lrf_new (lrf_ops mn mx 9) = Ret l /\ l_amin l = mn /\ l_incr l = (mx - mn) / 8 /\ l_num l = 9%N.
Proof.
  intros mn mx L B. assert (IN : s_incr mn mx 9 = (mx - mn) / 8). { unfold s_incr. cbn. f_equal. lra. }
  set (l1 := LRF mn mx 0 0 0 [] [] 0 0). assert (E1 : lrf_step lrf_new (LAngles mn mx) = Ret l1) by reflexivity.
  destruct (proj2 (C50_returns l1 mn mx 9 L ltac:(lia) ltac:(rewrite IN; exact B)) eq_refl eq_refl) as [l2 E2].
  exists (setRangeLimits l2 (2/10) 60). assert (RUN : lrf_run lrf_new (lrf_ops mn mx 9) = Ret (setRangeLimits l2 (2/10) 60)).
  { unfold lrf_ops. cbn [lrf_run]. rewrite E1. cbn [obind lrf_run]. rewrite E2. reflexivity. }
  split; auto. assert (U : forall n, In (LBeams n) (lrf_ops mn mx 9) -> (n < 4294967296)%N).
  { intros n [H | [H | [H | []]]]; try discriminate. injection H as <-. lia. }
  pose proof (C50_parameters _ _ U RUN) as [A [N _]].
  unfold lrf_ops in A, N. cbn [last_angles last_beams fold_left] in A, N. pose proof (f_equal fst A) as A1. pose proof (f_equal snd A) as A2. cbn [fst snd] in A1, A2.
  assert (N9 : l_num (setRangeLimits l2 (2 / 10) 60) = 9%N) by (rewrite N; reflexivity).
  pose proof (C50_table _ _ RUN) as T. rewrite N9 in T. destruct T as [_ [_ [I _]]]; [lia|rewrite A1, A2; auto|].
  split; [exact A1|]. split; [|exact N9]. rewrite I, A1, A2. exact IN.
Qed.
Lemma lookup : forall (l : lrf R) mn inc a x (k : N), l_amin l = mn -> l_incr l = inc -> l_num l = 9%N -> 0 < inc -> a - mn = x * inc -> -100 < x < 100 -> N.min 9 (Z.to_N (Z.max 0 (Ztrunc x + 1))) = k ->
  getAngleUpperIndex l a = Ret k.
Proof.
  intros l mn inc a x k A I N P E B K. assert (X : (a - l_amin l) / l_incr l = x) by (rewrite A, I, E; field; lra).
  unfold getAngleUpperIndex. rewrite raw_R by (rewrite X; unfold in_int; lra). rewrite X, N. cbn [obind]. rewrite K. reflexivity.
Qed.
(** TestLRF2 getAngleUpperIndexAngle, test_lrf.cpp:149-156 *)
Example upper_index_angle_test : exists l, lrf_run lrf_new (lrf_ops (- (PI / 2)) (PI / 2) 9) = Ret l /\
  getAngleUpperIndex l (3 / 2 * - (PI / 2)) = Ret 0%N /\ getAngleUpperIndex l (- (PI / 2)) = Ret 1%N /\ getAngleUpperIndex l (/ 2 * - (PI / 2) + / 2 * (PI / 2)) = Ret 5%N /\
  getAngleUpperIndex l (PI / 2) = Ret 9%N /\ getAngleUpperIndex l (3 / 2 * (PI / 2)) = Ret 9%N.
Proof.
  pose proof PI_RGT_0 as P. destruct (fixture (- (PI / 2)) (PI / 2)) as [l [RUN [A [I N]]]]; [lra| |]. { replace (PI / ((PI / 2 - - (PI / 2)) / 8)) with 8 by (field; lra). lra. }
  assert (I' : l_incr l = PI / 8) by (rewrite I; field). exists l. split; auto.
  split; [apply (lookup l (- (PI / 2)) (PI / 8) _ (IZR (-2))); auto; try lra; rewrite Ztrunc_IZR; reflexivity|].
  split; [apply (lookup l (- (PI / 2)) (PI / 8) _ (IZR 0)); auto; try lra; rewrite Ztrunc_IZR; reflexivity|].
  split; [apply (lookup l (- (PI / 2)) (PI / 8) _ (IZR 4)); auto; try lra; rewrite Ztrunc_IZR; reflexivity|].
  split; [apply (lookup l (- (PI / 2)) (PI / 8) _ (IZR 8)); auto; try lra; rewrite Ztrunc_IZR; reflexivity|].
  apply (lookup l (- (PI / 2)) (PI / 8) _ (IZR 10)); auto; try lra; rewrite Ztrunc_IZR; reflexivity.
Qed.
Ltac at2 := unfold Ratan2; repeat (match goal with |- context [Rlt_dec ?a ?b] => destruct (Rlt_dec a b); try (exfalso; lra) | |- context [Rle_dec ?a ?b] => destruct (Rle_dec a b); try (exfalso; lra) end).
Lemma atan_m1 : atan (-1) = - (PI / 4). Proof. replace (-1) with (Ropp 1) by lra. rewrite atan_opp, atan_1. reflexivity. Qed.
Ltac looks l d k := unfold getAngleUpperIndexXY; apply (lookup l (- PI) (PI / 4) _ (IZR k)); auto; try lra; [|rewrite Ztrunc_IZR; reflexivity];
  change (natan2 (T := R)) with Ratan2; at2; try replace (-1 / 1) with (-1) by field; try replace (1 / 1) with 1 by field; try replace (1 / -1) with (-1) by field; try replace (-1 / -1) with 1 by field;
  try replace (0 / 1) with 0 by field; try replace (0 / -1) with 0 by field; rewrite ?atan_1, ?atan_m1, ?atan_0; lra.
(** TestLRF getAngleUpperIndexUnitCircle, test_lrf.cpp:168-179 (the test subtracts 1 from all but the last) *)
Example upper_index_circle_test : exists l, lrf_run lrf_new (lrf_ops (- PI) PI 9) = Ret l /\
  getAngleUpperIndexXY l (-1) 0 = Ret 9%N /\ getAngleUpperIndexXY l (-1) (-1) = Ret 2%N /\ getAngleUpperIndexXY l 0 (-1) = Ret 3%N /\ getAngleUpperIndexXY l 1 (-1) = Ret 4%N /\
  getAngleUpperIndexXY l 1 0 = Ret 5%N /\ getAngleUpperIndexXY l 1 1 = Ret 6%N /\ getAngleUpperIndexXY l 0 1 = Ret 7%N /\ getAngleUpperIndexXY l (-1) 1 = Ret 8%N /\
  getAngleUpperIndexXY l 0 0 = Ret 5%N.
Proof.
  pose proof PI_RGT_0 as P. destruct (fixture (- PI) PI) as [l [RUN [A [I N]]]]; [lra| |]. { replace (PI / ((PI - - PI) / 8)) with 4 by (field; lra). lra. }
  assert (I' : l_incr l = PI / 4) by (rewrite I; field). exists l. split; auto.
  split; [looks l 0 8%Z|]. split; [looks l 0 1%Z|]. split; [looks l 0 2%Z|]. split; [looks l 0 3%Z|]. split; [looks l 0 4%Z|]. split; [looks l 0 5%Z|]. split; [looks l 0 6%Z|].
  split; [looks l 0 7%Z|]. looks l 0 4%Z.
Qed.
