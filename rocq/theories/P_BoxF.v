(** Boxes on doubles *)
From Coq Require Import ZArith NArith List Bool Lia Reals Lra Psatz.
From Flocq Require Import Core BinarySingleNaN.
From Verif Require Import Num NumOrd MathTypes Outcome Mesh Box Spec SpecRound SpecBoxF P_Tac P_Math P_Mesh P_MeshGeo P_Box P_BoxMesh.
From Verif Require Import P_Round P_Round2 P_Round3 P_OctF P_InsideF P_CompF1 P_CompF2.
Import ListNotations.
Local Open Scope R_scope.
Local Notation fin := (is_finite (prec := 53) (emax := 1024)).

Section Poly.
  Context {T : Type} {NT : Num T}.
  Lemma enclose_fold_p : forall pts (mn mx : vec3 T), fold_left enclose_pt pts (mn, mx) =
    (V3 (pmin vx pts (vx mn)) (pmin vy pts (vy mn)) (pmin vz pts (vz mn)), V3 (pmax vx pts (vx mx)) (pmax vy pts (vy mx)) (pmax vz pts (vz mx))).
  Proof.
    induction pts as [|p pts IH]; intros mn mx; [destruct mn, mx; reflexivity|]. cbn [fold_left enclose_pt]. rewrite IH. reflexivity.
  Qed.
  Definition epts (o : box T) (pose : trans3 T) := map (tapply pose) (m_points (b_mesh o)).
  Lemma enclose_min : forall (b o : box T) pose, b_min (box_enclose b o pose) =
    V3 (pmin vx (epts o pose) (vx (b_min b))) (pmin vy (epts o pose) (vy (b_min b))) (pmin vz (epts o pose) (vz (b_min b))).
  Proof. intros. unfold box_enclose. rewrite enclose_fold_p. reflexivity. Qed.
  Lemma enclose_max : forall (b o : box T) pose, b_max (box_enclose b o pose) =
    V3 (pmax vx (epts o pose) (vx (b_max b))) (pmax vy (epts o pose) (vy (b_max b))) (pmax vz (epts o pose) (vz (b_max b))).
  Proof. intros. unfold box_enclose. rewrite enclose_fold_p. reflexivity. Qed.
  Lemma enclose_mesh : forall (b o : box T) pose, m_points (b_mesh (box_enclose b o pose)) =
    m_points (b_mesh b) ++ corners8 (b_min (box_enclose b o pose)) (b_max (box_enclose b o pose)).
  Proof. intros. unfold box_enclose. rewrite enclose_fold_p. cbn [b_mesh b_min b_max]. apply generate_points. Qed.
End Poly.

(** the running extremes of two close lists are close *)
Lemma pmin_R : forall (f : vec3 R -> R) cs a, (pmin f cs a <= a /\ forall q, In q cs -> pmin f cs a <= f q) /\ (forall B, B <= a -> (forall q, In q cs -> B <= f q) -> B <= pmin f cs a).
Proof.
  intros f. induction cs as [|q cs IH]; intros a.
  - change (pmin f [] a) with a. split; [split; [lra|intros ? []]|auto].
  - change (pmin f (q :: cs) a) with (pmin f cs (nmin a (f q))). rewrite nmin_R. destruct (IH (Rmin a (f q))) as [[X1 X2] X3]. pose proof (Rmin_l a (f q)). pose proof (Rmin_r a (f q)).
    split; [split; [lra|intros q' [<-|Q]; [lra|auto]]|]. intros B LA LB. apply X3; [apply Rmin_glb; auto; apply LB; left; auto|intros; apply LB; right; auto].
Qed.
Lemma pmax_R : forall (f : vec3 R -> R) cs a, (a <= pmax f cs a /\ forall q, In q cs -> f q <= pmax f cs a) /\ (forall B, a <= B -> (forall q, In q cs -> f q <= B) -> pmax f cs a <= B).
Proof.
  intros f. induction cs as [|q cs IH]; intros a.
  - change (pmax f [] a) with a. split; [split; [lra|intros ? []]|auto].
  - change (pmax f (q :: cs) a) with (pmax f cs (nmax a (f q))). rewrite nmax_R. destruct (IH (Rmax a (f q))) as [[X1 X2] X3]. pose proof (Rmax_l a (f q)). pose proof (Rmax_r a (f q)).
    split; [split; [lra|intros q' [<-|Q]; [lra|auto]]|]. intros B LA LB. apply X3; [apply Rmax_lub; auto; apply LB; left; auto|intros; apply LB; right; auto].
Qed.

Lemma f2_l : forall (X Y : Type) (P : X -> Y -> Prop) l l', Forall2 P l l' -> forall x, In x l -> exists y, In y l' /\ P x y.
Proof. induction 1 as [|a b l l' H F IH]; intros x I; [destruct I|]. destruct I as [<-|I]; [exists b; split; [left; auto|auto]|]. destruct (IH x I) as [y [Y1 Y2]]. exists y. split; [right; auto|auto]. Qed.
Lemma f2_r : forall (X Y : Type) (P : X -> Y -> Prop) l l', Forall2 P l l' -> forall y, In y l' -> exists x, In x l /\ P x y.
Proof. induction 1 as [|a b l l' H F IH]; intros y I; [destruct I|]. destruct I as [<-|I]; [exists a; split; [left; auto|auto]|]. destruct (IH y I) as [x [X1 X2]]. exists x. split; [right; auto|auto]. Qed.

Lemma pmin_close : forall (f : vec3 F64 -> F64) (g : vec3 R -> R) E l l' a a', fin a = true -> (forall q, In q l -> fin (f q) = true) ->
  Rabs (B2R a - a') <= E -> Forall2 (fun p p' => Rabs (B2R (f p) - g p') <= E) l l' -> Rabs (B2R (pmin f l a) - pmin g l' a') <= E.
Proof.
  intros f g E l l' a a' FA FL CA CL. destruct (pmin_F f l a FA FL) as [_ [X1 [X2 X3]]]. destruct (pmin_R g l' a') as [[Y1 Y2] Y3].
  assert (U : pmin g l' a' - E <= B2R (pmin f l a)).
  { apply X3; [apply Rabs_le_inv in CA; lra|]. intros q Q. destruct (f2_l _ _ _ _ _ CL q Q) as [y [Y C]]. apply Y2 in Y. apply Rabs_le_inv in C. lra. }
  assert (V : B2R (pmin f l a) - E <= pmin g l' a').
  { apply Y3; [apply Rabs_le_inv in CA; lra|]. intros q Q. destruct (f2_r _ _ _ _ _ CL q Q) as [y [Y C]]. apply X2 in Y. apply Rabs_le_inv in C. lra. }
  apply Rabs_le. lra.
Qed.
Lemma pmax_close : forall (f : vec3 F64 -> F64) (g : vec3 R -> R) E l l' a a', fin a = true -> (forall q, In q l -> fin (f q) = true) ->
  Rabs (B2R a - a') <= E -> Forall2 (fun p p' => Rabs (B2R (f p) - g p') <= E) l l' -> Rabs (B2R (pmax f l a) - pmax g l' a') <= E.
Proof.
  intros f g E l l' a a' FA FL CA CL. destruct (pmax_F f l a FA FL) as [_ [X1 [X2 X3]]]. destruct (pmax_R g l' a') as [[Y1 Y2] Y3].
  assert (U : B2R (pmax f l a) <= pmax g l' a' + E).
  { apply X3; [apply Rabs_le_inv in CA; lra|]. intros q Q. destruct (f2_l _ _ _ _ _ CL q Q) as [y [Y C]]. apply Y2 in Y. apply Rabs_le_inv in C. lra. }
  assert (V : pmax g l' a' <= B2R (pmax f l a) + E).
  { apply Y3; [apply Rabs_le_inv in CA; lra|]. intros q Q. destruct (f2_r _ _ _ _ _ CL q Q) as [y [Y C]]. apply X2 in Y. apply Rabs_le_inv in C. lra. }
  apply Rabs_le. lra.
Qed.

(** what every box with a history satisfies *)
Record binv (M : R) (b : box F64) : Prop := {
  bf_sane : s_sane M (b_min b) (b_max b);
  bf_fin : forall p, In p (m_points (b_mesh b)) -> s_finv p;
  bf_in : forall p, In p (m_points (b_mesh b)) -> s_in_box (rv (b_min b)) (rv (b_max b)) (rv p);
  bf_corners : forall p, In p (corners8 (b_min b) (b_max b)) -> In p (m_points (b_mesh b))
}.
Lemma in_bound : forall M mn mx p, s_bound M mn -> s_bound M mx -> s_in_box mn mx p -> s_bound M p.
Proof.
  intros M mn mx p [A1 [A2 A3]] [B1 [B2 B3]] [X [Y Z]]. apply Rabs_le_inv in A1, A2, A3, B1, B2, B3. unfold s_bound. split; [|split]; apply Rabs_le; lra.
Qed.
Lemma corners_rv : forall (mn mx : vec3 F64) p, In p (corners8 mn mx) -> In (rv p) (corners8 (rv mn) (rv mx)).
Proof. intros mn mx p H. replace (corners8 (rv mn) (rv mx)) with (map rv (corners8 mn mx)) by reflexivity. apply in_map. auto. Qed.
Lemma corners_fin : forall (mn mx : vec3 F64) p, s_finv mn -> s_finv mx -> In p (corners8 mn mx) -> s_finv p.
Proof.
  intros mn mx p [A [B C]] [D [E F]] H. unfold s_finv.
  repeat (destruct H as [<-|H]; [cbn [vx vy vz]; auto|]). destruct H.
Qed.
Lemma make_binv : forall M mn mx, s_sane M mn mx -> binv M (box_make mn mx).
Proof.
  intros M mn mx S. destruct S as [F1 [F2 [O [B1 B2]]]]. constructor.
  - unfold box_make. cbn [b_min b_max]. unfold s_sane. auto.
  - rewrite box_make_points. intros p. apply corners_fin; auto.
  - rewrite box_make_points. intros p P. unfold box_make. cbn [b_min b_max]. apply corners_in; auto. apply corners_rv; auto.
  - rewrite box_make_points. unfold box_make. cbn [b_min b_max]. auto.
Qed.

Section Step.
  Context (A M N : R) (AM : A * M <= big / 8) (NB : N <= big / 8).
  Lemma epts_b : forall (o : box F64) pose, binv M o -> s_posed A N pose -> forall p, In p (m_points (b_mesh o)) ->
    s_finv (tapply pose p) /\ s_close (s_step A M N) (rv (tapply pose p)) (tapply (s_exact_pose pose) (rv p)).
  Proof.
    intros o pose [S F I C] [P1 [P2 [P3 P4]]] p P. destruct S as [S1 [S2 [S3 [S4 S5]]]].
    assert (BP : s_bound M (rv p)) by (eapply in_bound; [exact S4|exact S5|auto]). destruct (apply_b pose p A M N P1 P2 (F p P) P3 BP P4 AM NB) as [X1 X2]. split; [exact X1|exact X2].
  Qed.
  (** the new corners: exactly the extremes of the computed corners *)
  Lemma enclose_F : forall (b o : box F64) pose, binv M b -> binv M o -> s_posed A N pose -> let b' := box_enclose b o pose in
    s_finv (b_min b') /\ s_finv (b_max b') /\
    (vx (rv (b_min b')) <= vx (rv (b_min b)) /\ vy (rv (b_min b')) <= vy (rv (b_min b)) /\ vz (rv (b_min b')) <= vz (rv (b_min b))) /\
    (vx (rv (b_max b)) <= vx (rv (b_max b')) /\ vy (rv (b_max b)) <= vy (rv (b_max b')) /\ vz (rv (b_max b)) <= vz (rv (b_max b'))) /\
    (forall p, In p (m_points (b_mesh o)) -> s_in_box (rv (b_min b')) (rv (b_max b')) (rv (tapply pose p))) /\
    (forall lo hi, s_in_box lo hi (rv (b_min b)) -> s_in_box lo hi (rv (b_max b)) -> (forall p, In p (m_points (b_mesh o)) -> s_in_box lo hi (rv (tapply pose p))) ->
       s_in_box lo hi (rv (b_min b')) /\ s_in_box lo hi (rv (b_max b'))).
  Proof.
    intros b o pose IB IO PO b'. pose proof (epts_b o pose IO PO) as Q. destruct (bf_sane M b IB) as [[F1 [F2 F3]] [[G1 [G2 G3]] _]].
    assert (FQ : forall q, In q (epts o pose) -> s_finv q). { intros q H. apply in_map_iff in H. destruct H as [p [<- P]]. apply (Q p P). }
    unfold b'. rewrite enclose_min, enclose_max. unfold s_finv, rv. cbn [vx vy vz].
    destruct (pmin_F vx (epts o pose) _ F1) as [X1 [X2 [X3 X4]]]; [intros q H; apply (FQ q H)|].
    destruct (pmin_F vy (epts o pose) _ F2) as [Y1 [Y2 [Y3 Y4]]]; [intros q H; apply (FQ q H)|].
    destruct (pmin_F vz (epts o pose) _ F3) as [Z1 [Z2 [Z3 Z4]]]; [intros q H; apply (FQ q H)|].
    destruct (pmax_F vx (epts o pose) _ G1) as [U1 [U2 [U3 U4]]]; [intros q H; apply (FQ q H)|].
    destruct (pmax_F vy (epts o pose) _ G2) as [V1 [V2 [V3' V4]]]; [intros q H; apply (FQ q H)|].
    destruct (pmax_F vz (epts o pose) _ G3) as [W1 [W2 [W3 W4]]]; [intros q H; apply (FQ q H)|].
    split; [auto|]. split; [auto|]. split; [auto|]. split; [auto|]. 
    assert (MEM : forall p, In p (m_points (b_mesh o)) -> In (tapply pose p) (epts o pose)) by (intros; apply in_map; auto). split.
    - intros p P. apply MEM in P. unfold s_in_box. cbn [vx vy vz]. specialize (X3 _ P). specialize (Y3 _ P). specialize (Z3 _ P). specialize (U3 _ P). specialize (V3' _ P). specialize (W3 _ P). auto.
    - intros lo hi [A1 [A2 A3]] [B1 [B2 B3]] H. cbn [vx vy vz] in *.
      assert (H' : forall q, In q (epts o pose) -> s_in_box lo hi (rv q)). { intros q I. apply in_map_iff in I. destruct I as [p [<- P]]. exact (H p P). }
      unfold s_in_box. cbn [vx vy vz].
      assert (HX : forall q, In q (epts o pose) -> vx lo <= B2R (vx q) <= vx hi) by (intros q I; apply (H' q I)).
      assert (HY : forall q, In q (epts o pose) -> vy lo <= B2R (vy q) <= vy hi) by (intros q I; apply (H' q I)).
      assert (HZ : forall q, In q (epts o pose) -> vz lo <= B2R (vz q) <= vz hi) by (intros q I; apply (H' q I)).
      destruct (bf_sane M b IB) as [_ [_ [[O1 [O2 O3]] _]]]. unfold rv in O1, O2, O3. cbn [vx vy vz] in O1, O2, O3.
      pose proof (X4 (vx lo) (proj1 A1) (fun q I => proj1 (HX q I))). pose proof (Y4 (vy lo) (proj1 A2) (fun q I => proj1 (HY q I))). pose proof (Z4 (vz lo) (proj1 A3) (fun q I => proj1 (HZ q I))).
      pose proof (U4 (vx hi) (proj2 B1) (fun q I => proj2 (HX q I))). pose proof (V4 (vy hi) (proj2 B2) (fun q I => proj2 (HY q I))). pose proof (W4 (vz hi) (proj2 B3) (fun q I => proj2 (HZ q I))).
      repeat split; lra.
  Qed.
  Lemma enclose_binv : forall (b o : box F64) pose, binv M b -> binv M o -> s_posed A N pose ->
    s_bound M (rv (b_min (box_enclose b o pose))) -> s_bound M (rv (b_max (box_enclose b o pose))) -> binv M (box_enclose b o pose).
  Proof.
    intros b o pose IB IO PO B1 B2. destruct (enclose_F b o pose IB IO PO) as [F1 [F2 [L1 [L2 _]]]]. destruct IB as [S F I C]. destruct S as [S1 [S2 [S3 _]]].
    assert (ORD : s_ordered (rv (b_min (box_enclose b o pose))) (rv (b_max (box_enclose b o pose)))) by (unfold s_ordered in *; lra).
    constructor.
    - unfold s_sane. auto.
    - intros p P. rewrite enclose_mesh in P. apply in_app_or in P. destruct P as [P|P]; [auto|]. eapply corners_fin; [exact F1|exact F2|exact P].
    - intros p P. rewrite enclose_mesh in P. apply in_app_or in P. destruct P as [P|P]; [apply I in P; unfold s_in_box in *; lra|]. apply corners_in; auto. apply corners_rv; auto.
    - intros p P. rewrite enclose_mesh. apply in_or_app. right; auto.
  Qed.
  (** one call of enclose *)
  Lemma enclose_step : forall (b o : box F64) pose, binv M b -> binv M o -> s_posed A N pose -> let b' := box_enclose b o pose in let e := s_step A M N in
    (forall q, s_in_box (rv (b_min b)) (rv (b_max b)) q -> s_in_box (rv (b_min b')) (rv (b_max b')) q) /\
    (forall q, s_in_box (rv (b_min o)) (rv (b_max o)) q ->
       s_in_box (V3 (vx (rv (b_min b')) - e) (vy (rv (b_min b')) - e) (vz (rv (b_min b')) - e)) (V3 (vx (rv (b_max b')) + e) (vy (rv (b_max b')) + e) (vz (rv (b_max b')) + e)) (tapply (s_exact_pose pose) q)) /\
    (forall lo hi, (forall q, s_in_box (rv (b_min b)) (rv (b_max b)) q -> s_in_box lo hi q) -> (forall q, s_in_box (rv (b_min o)) (rv (b_max o)) q -> s_in_box lo hi (tapply (s_exact_pose pose) q)) ->
       forall q, s_in_box (rv (b_min b')) (rv (b_max b')) q -> s_in_box (V3 (vx lo - e) (vy lo - e) (vz lo - e)) (V3 (vx hi + e) (vy hi + e) (vz hi + e)) q).
  Proof.
    intros b o pose IB IO PO b' e. pose proof (epts_b o pose IO PO) as Q. destruct (enclose_F b o pose IB IO PO) as [F1 [F2 [L1 [L2 [IN SM]]]]]. fold b' in F1, F2, L1, L2, IN, SM.
    destruct (bf_sane M b IB) as [_ [_ [[O1 [O2 O3]] _]]].
    split; [|split].
    - intros q H. unfold s_in_box in *. lra.
    - intros q H. apply (corners_hull (s_exact_pose pose) _ _ _ _ _ H). intros p P. change (corners8 (rv (b_min o)) (rv (b_max o))) with (map rv (corners8 (b_min o) (b_max o))) in P.
      apply in_map_iff in P. destruct P as [p' [<- P]]. apply (bf_corners M o IO) in P. destruct (Q _ P) as [_ [C1 [C2 C3]]]. fold e in C1, C2, C3. destruct (IN _ P) as [I1 [I2 I3]]. apply Rabs_le_inv in C1, C2, C3. unfold s_in_box. cbn [vx vy vz]. lra.
    - intros lo hi H1 H2 q H.
      assert (D1 : s_in_box lo hi (rv (b_min b))) by (apply H1; unfold s_in_box; lra). assert (D2 : s_in_box lo hi (rv (b_max b))) by (apply H1; unfold s_in_box; lra).
      assert (EP : 0 <= e \/ m_points (b_mesh o) = []). { destruct (m_points (b_mesh o)) as [|p l] eqn:EE; [auto|left]. destruct (Q p) as [_ [C1 _]]; [left; auto|]. fold e in C1. pose proof (Rabs_pos (vx (rv (tapply pose p)) - vx (tapply (s_exact_pose pose) (rv p)))). lra. }
      assert (E0 : 0 <= e). { destruct EP as [E0|E0]; auto. exfalso. assert (K : In (V3 (vx (b_min o)) (vy (b_min o)) (vz (b_min o))) (m_points (b_mesh o))) by (apply (bf_corners M o IO); left; reflexivity). rewrite E0 in K. destruct K. }
      destruct (SM (V3 (vx lo - e) (vy lo - e) (vz lo - e)) (V3 (vx hi + e) (vy hi + e) (vz hi + e))) as [G1 G2].
      + unfold s_in_box in *. cbn [vx vy vz]. lra.
      + unfold s_in_box in *. cbn [vx vy vz]. lra.
      + intros p P. pose proof (H2 _ (bf_in M o IO p P)) as K. destruct (Q p P) as [_ [C1 [C2 C3]]]. fold e in C1, C2, C3. apply Rabs_le_inv in C1, C2, C3. unfold s_in_box in *. cbn [vx vy vz]. lra.
      + unfold s_in_box in *. cbn [vx vy vz] in *. lra.
  Qed.

  (** histories *)
  Definition bclose (E : R) (b : box F64) (b' : box R) : Prop :=
    s_close E (rv (b_min b)) (b_min b') /\ s_close E (rv (b_max b)) (b_max b') /\ Forall2 (fun p p' => s_close E (rv p) p') (m_points (b_mesh b)) (m_points (b_mesh b')).
  Lemma close_le : forall E E' p q, E <= E' -> s_close E p q -> s_close E' p q.
  Proof. intros E E' p q L [X [Y Z]]. unfold s_close. lra. Qed.
  Lemma close_refl : forall p, s_close 0 p p.
  Proof. intros p. unfold s_close. rewrite !Rminus_diag_eq, Rabs_R0 by reflexivity. lra. Qed.
  Lemma corners_close : forall E (mn mx : vec3 F64) mn' mx', s_close E (rv mn) mn' -> s_close E (rv mx) mx' -> Forall2 (fun p p' => s_close E (rv p) p') (corners8 mn mx) (corners8 mn' mx').
  Proof.
    intros E mn mx mn' mx' [A1 [A2 A3]] [B1 [B2 B3]]. unfold corners8. unfold rv in *. cbn [vx vy vz] in *. repeat (constructor; [unfold s_close; cbn [vx vy vz]; auto|]). constructor.
  Qed.
  Lemma move_close : forall (t : trans3 R) E p q, s_boundm A (tR t) -> s_close E p q -> s_close (3 * A * E) (tapply t p) (tapply t q).
  Proof.
    intros [[xx xy xz yx yy yz zx zy zz] [tx ty tz]] E [a b c] [a' b' c'] [[X1 [X2 X3]] [[Y1 [Y2 Y3]] [Z1 [Z2 Z3]]]] [C1 [C2 C3]]. cbn [vx vy vz tR mxx mxy mxz myx myy myz mzx mzy mzz] in *.
    assert (K : forall u v w k, Rabs u <= A -> Rabs v <= A -> Rabs w <= A -> Rabs (u * a + v * b + w * c + k - (u * a' + v * b' + w * c' + k)) <= 3 * A * E).
    { intros u v w k U V W. replace (u * a + v * b + w * c + k - (u * a' + v * b' + w * c' + k)) with (u * (a - a') + v * (b - b') + w * (c - c')) by ring.
      pose proof (abs3 _ _ _ _ U C1). pose proof (abs3 _ _ _ _ V C2). pose proof (abs3 _ _ _ _ W C3). eapply Rle_trans; [apply Rabs_triang|]. pose proof (Rabs_triang (u * (a - a')) (v * (b - b'))). lra. }
    unfold s_close. unmath. split; [|split]; (eapply Rle_trans; [apply Req_le|apply K]; [f_equal; ring|auto|auto|auto]).
  Qed.
  Lemma twin_ok : forall E b b', s_twin A M N E b b' -> binv M b /\ bclose E b b'.
  Proof.
    induction 1 as [mn mx S|E E' b o b' o' pose HB [IB [B1 [B2 B3]]] HO [IO [O1 [O2 O3]]] PO BD1 BD2].
    - split; [apply make_binv; auto|]. unfold bclose. rewrite !box_make_points. unfold box_make. cbn [b_min b_max]. split; [apply close_refl|]. split; [apply close_refl|]. apply corners_close; apply close_refl.
    - split; [apply enclose_binv; auto|]. pose proof (epts_b o pose IO PO) as Q. set (G := Rmax E (3 * A * E' + s_step A M N)). pose proof (Rmax_l E (3 * A * E' + s_step A M N)) as L1. pose proof (Rmax_r E (3 * A * E' + s_step A M N)) as L2. fold G in L1, L2.
      assert (FQ : forall q, In q (epts o pose) -> s_finv q). { intros q H. apply in_map_iff in H. destruct H as [p [<- P]]. apply (Q p P). }
      assert (CL : Forall2 (fun p p' => s_close G (rv p) p') (epts o pose) (epts o' (s_exact_pose pose))).
      { unfold epts. assert (BM : s_boundm A (tR (s_exact_pose pose))) by apply PO. revert Q. generalize (b_mesh o), (b_mesh o'), O3. intros mo mo' OO. revert OO. generalize (m_points mo), (m_points mo'). induction 1 as [|p p' l l' C F IH]; intros Q; [constructor|].
        cbn [map]. constructor; [|apply IH; intros; apply Q; right; auto]. destruct (Q p (or_introl eq_refl)) as [_ C']. pose proof (move_close (s_exact_pose pose) E' (rv p) p' BM C) as C2.
        apply (close_le (3 * A * E' + s_step A M N)); auto. destruct C' as [X1 [X2 X3]], C2 as [Y1 [Y2 Y3]]. unfold s_close in *.
        apply Rabs_le_inv in X1, X2, X3, Y1, Y2, Y3. split; [|split]; apply Rabs_le; lra. }
      destruct (bf_sane M b IB) as [[F1 [F2 F3]] [[G1 [G2 G3]] _]]. apply (close_le E G) in B1; auto. apply (close_le E G) in B2; auto. destruct B1 as [B11 [B12 B13]], B2 as [B21 [B22 B23]]. unfold rv in B11, B12, B13, B21, B22, B23. cbn [vx vy vz] in *.
      assert (CF : forall (f : vec3 F64 -> F64) (g : vec3 R -> R), (forall p p', s_close G (rv p) p' -> Rabs (B2R (f p) - g p') <= G) -> Forall2 (fun p p' => Rabs (B2R (f p) - g p') <= G) (epts o pose) (epts o' (s_exact_pose pose))).
      { intros f g H. clear -CL H. induction CL; constructor; auto. }
      assert (CX : forall p p', s_close G (rv p) p' -> Rabs (B2R (vx p) - vx p') <= G) by (intros p p' C; apply C).
      assert (CY : forall p p', s_close G (rv p) p' -> Rabs (B2R (vy p) - vy p') <= G) by (intros p p' C; apply C).
      assert (CZ : forall p p', s_close G (rv p) p' -> Rabs (B2R (vz p) - vz p') <= G) by (intros p p' C; apply C).
      assert (FX : forall q, In q (epts o pose) -> fin (vx q) = true) by (intros q H; apply (FQ q H)).
      assert (FY : forall q, In q (epts o pose) -> fin (vy q) = true) by (intros q H; apply (FQ q H)).
      assert (FZ : forall q, In q (epts o pose) -> fin (vz q) = true) by (intros q H; apply (FQ q H)).
      assert (MIN : s_close G (rv (b_min (box_enclose b o pose))) (b_min (box_enclose b' o' (s_exact_pose pose)))).
      { rewrite !enclose_min. unfold s_close, rv. cbn [vx vy vz]. split; [|split]; apply pmin_close; auto. }
      assert (MAX : s_close G (rv (b_max (box_enclose b o pose))) (b_max (box_enclose b' o' (s_exact_pose pose)))).
      { rewrite !enclose_max. unfold s_close, rv. cbn [vx vy vz]. split; [|split]; apply pmax_close; auto. }
      split; [exact MIN|]. split; [exact MAX|]. rewrite !enclose_mesh. apply Forall2_app; [|apply corners_close; auto].
      clear -B3 L1. induction B3; constructor; auto. apply (close_le E); auto.
  Qed.
End Step.
