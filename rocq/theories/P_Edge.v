(** Containment when the segment passes exactly through edges and corners *)
From Coq Require Import ZArith NArith List Bool Lia Reals Lra Psatz Permutation.
From Verif Require Import Num MathTypes Outcome Mesh Box Spec P_Tac P_Math P_Mesh P_MeshGeo ShapeQuery SpecQuery SpecEdge P_Query P_Query2 P_Query3 P_Query5.
Import ListNotations.
Local Open Scope R_scope.

(** ** what one triangle does to the running state *)
Inductive act := ANone | AGen (d : Z) | AEdge (i j : N) (d : Z) | AVert (i : N) (d : Z).
Definition klo (i j : N) : N := if N.ltb j i then j else i.
Definition khi (i j : N) : N := if N.ltb j i then i else j.
Definition kgap (i j : N) : N := u32 (khi i j + 4294967295 - klo i j).
Definition apply_act (a : act) (h : hits) : hits :=
  match a with
  | ANone => h
  | AGen d => Hits (h_count h + d) (h_edge h) (h_vert h)
  | AEdge i j d => if Z.eqb (h_edge h (klo i j) (kgap i j)) d then h
      else Hits (h_count h + d) (upd2 (h_edge h) (klo i j) (kgap i j) (h_edge h (klo i j) (kgap i j) + d)%Z) (h_vert h)
  | AVert i d => if Z.eqb (h_vert h i) d then h else Hits (h_count h + d) (h_edge h) (upd1 (h_vert h) i (h_vert h i + d)%Z)
  end.
Definition is0 (x : R) : bool := if Req_EM_T x 0 then true else false.
Definition nonneg (x : R) : bool := if Rle_dec 0 x then true else false.
Definition nonpos (x : R) : bool := if Rle_dec x 0 then true else false.
Definition dir3 (s1 s2 s3 : R) : Z := if nonneg s1 && nonneg s2 && nonneg s3 then 1%Z else if nonpos s1 && nonpos s2 && nonpos s3 then (-1)%Z else 0%Z.
Definition act_of (p q : vec3 R) (ix : N * N * N) (t : triple) : act :=
  let '(i, j, k) := ix in let '(a, b, c) := t in
  let s1 := s_orient p q a b in let s2 := s_orient p q b c in let s3 := s_orient p q c a in
  if Rlt_dec (s_height a b c p * s_height a b c q) 0 then
    let d := dir3 s1 s2 s3 in
    if Z.eqb d 0 then ANone else
    match is0 s1, is0 s2, is0 s3 with
    | false, false, false => AGen d
    | true, false, false => AEdge i j d
    | false, true, false => AEdge j k d
    | false, false, true => AEdge k i d
    | true, true, false => AVert j d
    | false, true, true => AVert k d
    | true, false, true => AVert i d
    | true, true, true => ANone
    end
  else ANone.
Lemma all_zero : forall p q a b c, s_orient p q a b = 0 -> s_orient p q b c = 0 -> s_orient p q c a = 0 -> s_height a b c p <> 0 -> p = q.
Proof.
  intros p q a b c A B C H. destruct (cramer p q a b c) as [X [Y Z]]. pose proof (orient_sum p q a b c) as S. rewrite A, B, C in *.
  assert (D : s_height a b c q - s_height a b c p = 0) by lra. rewrite D in *.
  assert (K : forall x, - (s_height a b c p * x) = 0 -> x = 0) by (intros x E; apply (Rmult_eq_reg_l (s_height a b c p)); lra).
  destruct p as [p1 p2 p3], q as [q1 q2 q3]. cbn [vx vy vz] in *. f_equal; [pose proof (K (q1 - p1))|pose proof (K (q2 - p2))|pose proof (K (q3 - p3))]; lra.
Qed.
Lemma sign_zero : forall e s, 0 < e -> s = 0 -> Rleb (- e) s = true /\ Rltb e s = false /\ Rleb s e = true /\ Rltb s (- e) = false /\ Rltb (Rabs s) e = true /\ Rltb e (Rabs s) = false.
Proof. intros e s E ->. rewrite Rabs_R0, !Rleb_true, Rltb_true, !Rltb_false. lra. Qed.
Lemma abs_pos : forall e s, 0 < e -> e < s -> Rltb (Rabs s) e = false /\ Rltb e (Rabs s) = true.
Proof. intros. rewrite Rabs_pos_eq by lra. rewrite Rltb_true, Rltb_false. lra. Qed.
Lemma abs_neg : forall e s, 0 < e -> s < - e -> Rltb (Rabs s) e = false /\ Rltb e (Rabs s) = true.
Proof. intros. rewrite Rabs_left by lra. rewrite Rltb_true, Rltb_false. lra. Qed.
Lemma is0_t : forall x, x = 0 -> is0 x = true. Proof. intros x ->. unfold is0. destruct Req_EM_T; auto; exfalso; lra. Qed.
Lemma is0_f : forall x, x <> 0 -> is0 x = false. Proof. intros x H. unfold is0. destruct Req_EM_T; auto; exfalso; lra. Qed.
Lemma nonneg_t : forall x, 0 <= x -> nonneg x = true. Proof. intros x H. unfold nonneg. destruct Rle_dec; auto; lra. Qed.
Lemma nonneg_f : forall x, x < 0 -> nonneg x = false. Proof. intros x H. unfold nonneg. destruct Rle_dec; auto; lra. Qed.
Lemma nonpos_t : forall x, x <= 0 -> nonpos x = true. Proof. intros x H. unfold nonpos. destruct Rle_dec; auto; lra. Qed.
Lemma nonpos_f : forall x, 0 < x -> nonpos x = false. Proof. intros x H. unfold nonpos. destruct Rle_dec; auto; lra. Qed.
Lemma off_edge_sym : forall p a b, s_off_edge p a b -> s_off_edge p b a.
Proof.
  intros p a b H. unfold s_off_edge in *. assert (S : forall x y, s_norm (s_diff x y) = s_norm (s_diff y x)) by (intros; unfold s_norm, s_dot, s_diff; cbn [vx vy vz]; f_equal; ring).
  rewrite (S p b), (S a p), (S a b). lra.
Qed.
Lemma norm_len : forall v : vec3 R, vlength v = s_norm v.
Proof. intros. unfold vlength, s_norm, s_dot. unR. f_equal. Qed.
Lemma tri_tame : forall pts (p q : vec3 R) t h v1 v2 v3, p <> q ->
  point_at pts (ti1 t) = Some v1 -> point_at pts (ti2 t) = Some v2 -> point_at pts (ti3 t) = Some v3 -> s_tame p q (v1, v2, v3) ->
  contains_tri pts p q t h = Ret (Some (apply_act (act_of p q (idx t) (v1, v2, v3)) h)).
Proof.
  intros pts p q t h v1 v2 v3 PQ P1 P2 P3 [[G1 [G2 G3]] [G4 [G5 [O1 [O2 O3]]]]]. unfold contains_tri. rewrite P1, P2, P3. cbn [or_ub obind].
  rewrite !sp_orient. rewrite (orient_plane1 v1 v2 v3 q), (orient_plane2 v1 v2 v3 p). rewrite !area_spec.
  unfold act_of, idx.
  assert (VV : forall v, In v [v1; v2; v3] -> veqb v p = false).
  { intros v I. apply not_true_iff_false. intros X. unfold veqb in X. rewrite !andb_true_iff in X. destruct X as [[X1 X2] X3]. apply Reqb_true in X1, X2, X3.
    assert (v = p) by (rewrite (V3_eta v), (V3_eta p); f_equal; auto). subst v.
    assert (Z : s_height v1 v2 v3 p = 0) by (destruct I as [<-|[<-|[<-|[]]]]; unq; ring). rewrite Z, Rmult_0_l, Rabs_R0 in G4. pose proof e16_pos. lra. }
  assert (AZ : ~ (s_orient p q v1 v2 = 0 /\ s_orient p q v2 v3 = 0 /\ s_orient p q v3 v1 = 0)).
  { intros [X [Y Z]]. apply PQ. apply (all_zero p q v1 v2 v3); auto. intros W. rewrite W, Rmult_0_l, Rabs_R0 in G4. pose proof e16_pos. lra. }
  assert (EE : forall i j a b (k : outcome (option hits)), point_at pts i = Some a -> point_at pts j = Some b -> s_off_edge p a b ->
    (let i_min := klo i j in let i_max := khi i j in let* a := or_ub (point_at pts i_min) in let* b := or_ub (point_at pts i_max) in
      if (nabs (vlength (vsub p a) + vlength (vsub b p) - vlength (vsub b a)) <=? eps12)%num then Ret None else k) = k).
  { intros i j a b k A B O. cbv zeta. unfold klo, khi. pose proof (off_edge_sym _ _ _ O) as O'. unfold s_off_edge in O, O'.
    assert (N : forall x y : vec3 R, vlength (vsub x y) = s_norm (s_diff x y)) by (intros; rewrite norm_len; reflexivity).
    assert (C : forall r : R, 1 / 10 ^ 12 < r -> (nabs r <=? eps12)%num = false).
    { intros r R. rewrite eps12_R. cbn [nleb nabs NumR]. apply Rleb_false. assert (0 < 1 / 10 ^ 12) by (apply Rdiv_lt_0_compat; [lra|apply pow_lt; lra]). rewrite Rabs_pos_eq; lra. }
    destruct (N.ltb j i); rewrite A, B; cbn [or_ub obind]; rewrite !N, C; auto. }
  pose proof (fun k => EE _ _ _ _ k P1 P2 O1) as E1. pose proof (fun k => EE _ _ _ _ k P2 P3 O2) as E2. pose proof (fun k => EE _ _ _ _ k P3 P1 O3) as E3. clear EE.
  pose proof (VV v1 ltac:(cbn; auto)) as V1. pose proof (VV v2 ltac:(cbn; auto)) as V2. pose proof (VV v3 ltac:(cbn; auto)) as V3. clear VV O1 O2 O3.
  fold (klo (ti1 t) (ti2 t)) in E1.
  unfold nlit in *. rewrite eps16_R. cbn [nltb nleb nopp nmul nabs nadd nsub NumR].
  replace (s_area v2 p v3) with (s_area p v2 v3) by apply area_swap. replace (s_area p v1 v3) with (s_area p v3 v1) by (symmetry; rewrite (area_swap p v1 v3); apply area_rot).
  pose proof e16_pos as E. unfold s_sharp in *. set (e := 1 / 10 ^ 16) in *.
  set (s1 := s_orient p q v1 v2) in *. set (s2 := s_orient p q v2 v3) in *. set (s3 := s_orient p q v3 v1) in *.
  set (hp := s_height v1 v2 v3 p) in *. set (hq := s_height v1 v2 v3 q) in *.
  assert (AR : Rltb (Rabs (s_area p v2 v3 + s_area p v3 v1 + s_area p v1 v2 - s_area v1 v2 v3)) eps12 = false) by (rewrite eps12_R; apply Rltb_false; auto).
  rewrite AR. clear AR G5.
  clearbody e s1 s2 s3 hp hq.
  assert (X4 : (Rleb (- e) (- hq * hp) = true /\ hp * hq < 0) \/ (Rleb (- e) (- hq * hp) = false /\ 0 < hp * hq)).
  { destruct (abs_cases _ _ G4 E); [right; split; [apply Rleb_false|]; lra|left; split; [apply Rleb_true|]; lra]. }
  clear G4.
  assert (XX : forall s, s = 0 \/ e < Rabs s -> (s = 0 \/ e < s \/ s < - e)) by (intros s [?|H]; [auto|right; apply abs_cases; auto]).
  apply XX in G1, G2, G3. clear XX.
  assert (CL : forall s, s = 0 \/ e < s \/ s < - e ->
    (s = 0 /\ Rleb (- e) s = true /\ Rltb e s = false /\ Rleb s e = true /\ Rltb s (- e) = false /\ Rltb (Rabs s) e = true /\ Rltb e (Rabs s) = false /\ is0 s = true /\ nonneg s = true /\ nonpos s = true) \/
    (s <> 0 /\ Rleb (- e) s = true /\ Rltb e s = true /\ Rleb s e = false /\ Rltb s (- e) = false /\ Rltb (Rabs s) e = false /\ Rltb e (Rabs s) = true /\ is0 s = false /\ nonneg s = true /\ nonpos s = false) \/
    (s <> 0 /\ Rleb (- e) s = false /\ Rltb e s = false /\ Rleb s e = true /\ Rltb s (- e) = true /\ Rltb (Rabs s) e = false /\ Rltb e (Rabs s) = true /\ is0 s = false /\ nonneg s = false /\ nonpos s = true)).
  { intros s [H|[H|H]].
    - left. destruct (sign_zero e s E H) as [A [B [C [D [F G]]]]]. repeat split; auto; [apply is0_t|apply nonneg_t|apply nonpos_t]; lra.
    - right. left. destruct (sign_pos e s E H) as [A [B [C D]]]. destruct (abs_pos e s E H). repeat split; auto; [|apply is0_f|apply nonneg_t|apply nonpos_f]; lra.
    - right. right. destruct (sign_neg e s E H) as [A [B [C D]]]. destruct (abs_neg e s E H). repeat split; auto; [|apply is0_f|apply nonneg_f|apply nonpos_t]; lra. }
  apply CL in G1, G2, G3. clear CL. unfold dir3.
  assert (H4 : (Rleb (- e) (- hq * hp) = true /\ exists l, Rlt_dec (hp * hq) 0 = left l) \/ (Rleb (- e) (- hq * hp) = false /\ exists l, Rlt_dec (hp * hq) 0 = right l)).
  { destruct X4 as [[A B]|[A B]]; [left|right]; split; auto; destruct Rlt_dec; try (eexists; reflexivity); exfalso; lra. }
  clear X4. clear E.
  destruct H4 as [[-> [l ->]]|[-> [l ->]]];
  destruct G1 as [[A1 G1]|[[A1 G1]|[A1 G1]]]; destruct G2 as [[A2 G2]|[[A2 G2]|[A2 G2]]]; destruct G3 as [[A3 G3]|[[A3 G3]|[A3 G3]]];
  try (exfalso; apply AZ; auto; fail);
  repeat match goal with H : _ /\ _ |- _ => destruct H end;
  repeat match goal with H : Rltb _ _ = _ |- _ => rewrite ?H; clear H | H : Rleb _ _ = _ |- _ => rewrite ?H; clear H | H : is0 _ = _ |- _ => rewrite ?H; clear H | H : nonneg _ = _ |- _ => rewrite ?H; clear H | H : nonpos _ = _ |- _ => rewrite ?H; clear H end;
  cbn [andb negb orb Nat.ltb Nat.leb Nat.eqb cnt3 b2n b2z Nat.add Z.sub Z.add Z.opp Pos.succ Z.eqb apply_act]; try reflexivity;
  first [rewrite P2; cbn [or_ub obind]; rewrite V2; destruct (Z.eqb _ _); reflexivity | rewrite P1; cbn [or_ub obind]; rewrite V1; destruct (Z.eqb _ _); reflexivity
       | rewrite P3; cbn [or_ub obind]; rewrite V3; destruct (Z.eqb _ _); reflexivity
       | etransitivity; [apply E1|]; fold (klo (ti1 t) (ti2 t)) (khi (ti1 t) (ti2 t)); fold (kgap (ti1 t) (ti2 t)); destruct (Z.eqb _ _); reflexivity
       | etransitivity; [apply E2|]; fold (klo (ti2 t) (ti3 t)) (khi (ti2 t) (ti3 t)); fold (kgap (ti2 t) (ti3 t)); destruct (Z.eqb _ _); reflexivity
       | etransitivity; [apply E3|]; fold (klo (ti3 t) (ti1 t)) (khi (ti3 t) (ti1 t)); fold (kgap (ti3 t) (ti1 t)); destruct (Z.eqb _ _); reflexivity].
Qed.
