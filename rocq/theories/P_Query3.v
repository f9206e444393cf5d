(** Crossing numbers along paths: the linking argument *)
From Coq Require Import ZArith NArith List Bool Lia Reals Lra Permutation.
From Verif Require Import Num MathTypes Outcome Mesh Box Spec P_Tac P_Math P_Mesh P_MeshGeo ShapeQuery SpecQuery P_Query P_Query2.
Import ListNotations.

(** ** a finite check on signs *)
Definition sgb (a b c : bool) : Z := if a && b && c then 1%Z else if negb a && negb b && negb c then (-1)%Z else 0%Z.
Definition segb (x y : bool) (z : Z) : Z := if eqb x y then 0%Z else z.
(* a vector of signs is neither (b0,b1,b2) nor its negation *)
Definition notpar (m0 m1 m2 b0 b1 b2 : bool) : bool :=
  negb (eqb m0 b0 && eqb m1 b1 && eqb m2 b2) && negb (eqb m0 (negb b0) && eqb m1 (negb b1) && eqb m2 (negb b2)).
(* three signs adding up to y - x *)
Definition sumok (m0 m1 m2 x y : bool) : bool :=
  implb (m0 && m1 && m2) (negb (x && negb y)) && implb (negb m0 && negb m1 && negb m2) (negb (negb x && y)).
Definition link_ok (A0 A1 A2 B0 B1 B2 m00 m01 m02 m10 m11 m12 m20 m21 m22 : bool) : bool :=
  implb (notpar m00 m01 m02 B0 B1 B2 && notpar m10 m11 m12 B0 B1 B2 && notpar m20 m21 m22 B0 B1 B2 &&
         notpar m00 m10 m20 A0 A1 A2 && notpar m01 m11 m21 A0 A1 A2 && notpar m02 m12 m22 A0 A1 A2 &&
         sumok m00 m01 m02 A1 A2 && sumok m10 m11 m12 A2 A0 && sumok m20 m21 m22 A0 A1 &&
         sumok m00 m10 m20 B1 B2 && sumok m01 m11 m21 B2 B0 && sumok m02 m12 m22 B0 B1)
   (Z.eqb (segb A1 A2 (sgb m00 m01 m02) + segb A2 A0 (sgb m10 m11 m12) + segb A0 A1 (sgb m20 m21 m22))
          (segb B1 B2 (sgb m00 m10 m20) + segb B2 B0 (sgb m01 m11 m21) + segb B0 B1 (sgb m02 m12 m22))).
Definition allb (f : bool -> bool) : bool := f true && f false.
Lemma allb_spec : forall f, allb f = true -> forall b, f b = true.
Proof. intros f H [|]; unfold allb in H; apply andb_prop in H; tauto. Qed.
Lemma link_all : forall A0 A1 A2 B0 B1 B2 m00 m01 m02 m10 m11 m12 m20 m21 m22, link_ok A0 A1 A2 B0 B1 B2 m00 m01 m02 m10 m11 m12 m20 m21 m22 = true.
Proof.
  assert (H : allb (fun A0 => allb (fun A1 => allb (fun A2 => allb (fun B0 => allb (fun B1 => allb (fun B2 =>
    allb (fun m00 => allb (fun m01 => allb (fun m02 => allb (fun m10 => allb (fun m11 => allb (fun m12 => allb (fun m20 => allb (fun m21 => allb (fun m22 =>
    link_ok A0 A1 A2 B0 B1 B2 m00 m01 m02 m10 m11 m12 m20 m21 m22))))))))))))))) = true) by (vm_compute; reflexivity).
  intros.
  apply allb_spec with (b := A0) in H. apply allb_spec with (b := A1) in H. apply allb_spec with (b := A2) in H.
  apply allb_spec with (b := B0) in H. apply allb_spec with (b := B1) in H. apply allb_spec with (b := B2) in H.
  apply allb_spec with (b := m00) in H. apply allb_spec with (b := m01) in H. apply allb_spec with (b := m02) in H.
  apply allb_spec with (b := m10) in H. apply allb_spec with (b := m11) in H. apply allb_spec with (b := m12) in H.
  apply allb_spec with (b := m20) in H. apply allb_spec with (b := m21) in H. apply allb_spec with (b := m22) in H. exact H.
Qed.
Local Open Scope R_scope.
Definition pos (x : R) : bool := if Rlt_dec 0 x then true else false.
Lemma pos_cases : forall x, x <> 0 -> (0 < x /\ pos x = true) \/ (x < 0 /\ pos x = false).
Proof. intros x N. unfold pos. destruct (Rlt_dec 0 x); [left|right]; split; auto; lra. Qed.
Lemma sgn3_b : forall a b c, a <> 0 -> b <> 0 -> c <> 0 -> sgn3 a b c = sgb (pos a) (pos b) (pos c).
Proof.
  intros a b c A B C. destruct (sgn3_cases a b c A B C) as [[X [Y [Z ->]]]|[[X [Y [Z ->]]]|[X ->]]]; unfold same_sign in *;
  destruct (pos_cases a A) as [[A1 ->]|[A1 ->]], (pos_cases b B) as [[B1 ->]|[B1 ->]], (pos_cases c C) as [[C1 ->]|[C1 ->]]; try reflexivity; exfalso; lra.
Qed.
Lemma notpar_R : forall m0 m1 m2 b0 b1 b2, m0 <> 0 -> m1 <> 0 -> m2 <> 0 -> b0 <> 0 -> b1 <> 0 -> b2 <> 0 -> m0 * b0 + m1 * b1 + m2 * b2 = 0 ->
  notpar (pos m0) (pos m1) (pos m2) (pos b0) (pos b1) (pos b2) = true.
Proof.
  intros m0 m1 m2 b0 b1 b2 M0 M1 M2 B0 B1 B2 E.
  assert (P : forall m b, m <> 0 -> b <> 0 -> (0 < m * b /\ pos m = pos b) \/ (m * b < 0 /\ pos m = negb (pos b))).
  { intros m b M B. destruct (pos_cases m M) as [[X ->]|[X ->]], (pos_cases b B) as [[Y ->]|[Y ->]]; [left|right|right|left]; split; auto; nra. }
  unfold notpar. destruct (P m0 b0 M0 B0) as [[X0 ->]|[X0 ->]], (P m1 b1 M1 B1) as [[X1 ->]|[X1 ->]], (P m2 b2 M2 B2) as [[X2 ->]|[X2 ->]]; try (exfalso; lra);
  destruct (pos b0), (pos b1), (pos b2); reflexivity.
Qed.
Lemma sumok_R : forall m0 m1 m2 x y, m0 <> 0 -> m1 <> 0 -> m2 <> 0 -> x <> 0 -> y <> 0 -> m0 + m1 + m2 = y - x -> sumok (pos m0) (pos m1) (pos m2) (pos x) (pos y) = true.
Proof.
  intros m0 m1 m2 x y M0 M1 M2 X Y E. unfold sumok.
  destruct (pos_cases m0 M0) as [[A0 ->]|[A0 ->]], (pos_cases m1 M1) as [[A1 ->]|[A1 ->]], (pos_cases m2 M2) as [[A2 ->]|[A2 ->]];
  destruct (pos_cases x X) as [[B0 ->]|[B0 ->]], (pos_cases y Y) as [[B1 ->]|[B1 ->]]; try reflexivity; exfalso; lra.
Qed.
(** signed crossing of the segment pq with the triangle abc, from signs *)
Definition seg (p q a b c : vec3 R) : Z :=
  segb (pos (s_height a b c p)) (pos (s_height a b c q)) (sgn3 (s_orient p q a b) (s_orient p q b c) (s_orient p q c a)).
Lemma sgn3_opp : forall a b c, sgn3 (- a) (- b) (- c) = (- sgn3 a b c)%Z.
Proof.
  intros. unfold sgn3. destruct (Rlt_dec 0 a), (Rlt_dec a 0), (Rlt_dec 0 (- a)), (Rlt_dec (- a) 0); try (exfalso; lra); try reflexivity;
  destruct (Rlt_dec 0 b), (Rlt_dec b 0), (Rlt_dec 0 (- b)), (Rlt_dec (- b) 0); try (exfalso; lra); try reflexivity;
  destruct (Rlt_dec 0 c), (Rlt_dec c 0), (Rlt_dec 0 (- c)), (Rlt_dec (- c) 0); try (exfalso; lra); try reflexivity.
Qed.
Lemma orient_rev : forall p q a b, s_orient q p a b = - s_orient p q a b.
Proof. intros. unq. ring. Qed.
Lemma orient_sym : forall p q a b, s_orient p q a b = s_orient a b p q.
Proof. intros. unq. ring. Qed.
Lemma seg_anti : forall p q a b c, seg q p a b c = (- seg p q a b c)%Z.
Proof. intros. unfold seg. rewrite !(orient_rev p q), sgn3_opp. unfold segb. destruct (pos (s_height a b c p)), (pos (s_height a b c q)); reflexivity. Qed.
Lemma plane_rel : forall p q r a b c, s_orient q r b c * s_height p q r a + s_orient q r c a * s_height p q r b + s_orient q r a b * s_height p q r c = 0.
Proof. intros. unq. ring. Qed.
Lemma height_rot : forall a b c x, s_height a b c x = s_height b c a x.
Proof. intros. unq. ring. Qed.
Lemma link : forall p q r a b c, s_general p q r (a, b, c) ->
  (seg q r a b c + seg r p a b c + seg p q a b c = seg b c p q r + seg c a p q r + seg a b p q r)%Z.
Proof.
  intros p q r a b c [[N1 [N2 N3]] [[N4 [N5 N6]] [[N7 [N8 N9]] [[A0 [A1 A2]] [B0 [B1 B2]]]]]]. unfold seg.
  rewrite (orient_sym b c p q), (orient_sym b c q r), (orient_sym b c r p), (orient_sym c a p q), (orient_sym c a q r), (orient_sym c a r p), (orient_sym a b p q), (orient_sym a b q r), (orient_sym a b r p).
  rewrite !sgn3_b by auto.
  pose proof (link_all (pos (s_height a b c p)) (pos (s_height a b c q)) (pos (s_height a b c r)) (pos (s_height p q r a)) (pos (s_height p q r b)) (pos (s_height p q r c))
    (pos (s_orient q r b c)) (pos (s_orient q r c a)) (pos (s_orient q r a b)) (pos (s_orient r p b c)) (pos (s_orient r p c a)) (pos (s_orient r p a b))
    (pos (s_orient p q b c)) (pos (s_orient p q c a)) (pos (s_orient p q a b))) as L.
  unfold link_ok in L.
  assert (HR : forall x y z u, s_height y z x u = s_height x y z u /\ s_height z x y u = s_height x y z u)
    by (intros x y z u; split; [symmetry; apply height_rot|apply height_rot]).
  pose proof (plane_rel p q r a b c) as R1. pose proof (plane_rel q r p a b c) as R2. pose proof (plane_rel r p q a b c) as R3.
  pose proof (plane_rel a b c p q r) as R4. pose proof (plane_rel b c a p q r) as R5. pose proof (plane_rel c a b p q r) as R6.
  rewrite !(proj1 (HR p q r _)) in R2. rewrite !(proj2 (HR p q r _)) in R3. rewrite !(proj1 (HR a b c _)) in R5. rewrite !(proj2 (HR a b c _)) in R6.
  rewrite (orient_sym b c p q), (orient_sym b c q r), (orient_sym b c r p) in R4. rewrite (orient_sym c a p q), (orient_sym c a q r), (orient_sym c a r p) in R5. rewrite (orient_sym a b p q), (orient_sym a b q r), (orient_sym a b r p) in R6.
  rewrite !notpar_R in L; auto.
  - rewrite !sumok_R in L; auto.
    + cbn [andb implb] in L. apply Z.eqb_eq in L.
      assert (SR : forall x y z, sgb x y z = sgb z x y) by (intros [] [] []; reflexivity).
      assert (SR' : forall x y z, sgb x y z = sgb y z x) by (intros [] [] []; reflexivity).
      rewrite (SR' (pos (s_orient q r a b)) (pos (s_orient q r b c))), (SR' (pos (s_orient r p a b)) (pos (s_orient r p b c))), (SR' (pos (s_orient p q a b)) (pos (s_orient p q b c))).
      rewrite (SR' (pos (s_orient p q b c)) (pos (s_orient q r b c))), (SR' (pos (s_orient p q c a)) (pos (s_orient q r c a))), (SR' (pos (s_orient p q a b)) (pos (s_orient q r a b))). exact L.
    + pose proof (orient_sum a b p q r) as OS. clear - OS. rewrite !(orient_sym a b) in *. lra.
    + pose proof (orient_sum c a p q r) as OS. clear - OS. rewrite !(orient_sym c a) in *. lra.
    + pose proof (orient_sum b c p q r) as OS. clear - OS. rewrite !(orient_sym b c) in *. lra.
    + pose proof (orient_sum p q a b c) as OS. clear - OS. lra.
    + pose proof (orient_sum r p a b c) as OS. clear - OS. lra.
    + pose proof (orient_sum q r a b c) as OS. clear - OS. lra.
Qed.

(** ** crossing numbers and [seg] *)
Definition nz1 (p q : vec3 R) (t : triple) : Prop :=
  let '(a, b, c) := t in
  (s_orient p q a b <> 0 /\ s_orient p q b c <> 0 /\ s_orient p q c a <> 0) /\ s_height a b c p <> 0 /\ s_height a b c q <> 0.
Definition segt (p q : vec3 R) (t : triple) : Z := let '(a, b, c) := t in seg p q a b c.
Lemma crossing_seg : forall p q t z, nz1 p q t -> s_crossing p q t z -> z = segt p q t.
Proof.
  intros p q [[a b] c] z [[N1 [N2 N3]] [H1 H2]] C. unfold s_crossing in C. pose proof (meets_iff p q a b c N1 N2 N3) as M. pose proof (orient_sum p q a b c) as SUM.
  unfold segt, seg, segb.
  destruct (pos_cases _ H1) as [[P1 ->]|[P1 ->]], (pos_cases _ H2) as [[P2 ->]|[P2 ->]]; cbn [eqb];
  destruct (sgn3_cases _ _ _ N1 N2 N3) as [[A [B [D E]]]|[[A [B [D E]]]|[A E]]]; rewrite ?E; unfold same_sign in *;
  destruct C as [[C1 [C2 ->]]|[[C1 [C2 ->]]|[C1 ->]]]; try reflexivity; exfalso; rewrite M in C1; try (destruct C1; nra); try (apply C1; split; [tauto|nra]); tauto.
Qed.
Lemma crossing_segs : forall p q l zs, (forall t, In t l -> nz1 p q t) -> Forall2 (s_crossing p q) l zs -> s_zsum zs = s_zsum (map (segt p q) l).
Proof.
  intros p q l zs N F. induction F as [|t z l zs C F IH]; [reflexivity|]. unfold s_zsum in *. cbn [map fold_right]. rewrite IH by (intros; apply N; right; auto).
  f_equal. apply crossing_seg; auto. apply N. left; auto.
Qed.
Lemma clear_segs : forall p q l, (forall t, In t l -> nz1 p q t) -> s_clear p q l -> s_zsum (map (segt p q) l) = 0%Z.
Proof.
  intros p q l N C. induction l as [|[[a b] c] l IH]; [reflexivity|]. unfold s_zsum in *. cbn [map fold_right].
  rewrite IH; [|intros; apply N; right; auto|intros x y z I; apply C; right; auto].
  rewrite <- (crossing_seg p q (a, b, c) 0%Z); [reflexivity|apply N; left; auto|]. right. right. split; auto. apply C. left; auto.
Qed.
Lemma zsum_map2 : forall A (f g : A -> Z) l, s_zsum (map (fun t => f t + g t)%Z l) = (s_zsum (map f l) + s_zsum (map g l))%Z.
Proof. intros A f g. induction l as [|a l IH]; [reflexivity|]. unfold s_zsum in *. cbn [map fold_right]. rewrite IH. lia. Qed.
Lemma general_nz1 : forall p q r t, s_general p q r t -> nz1 p q t /\ nz1 q r t /\ nz1 r p t.
Proof. intros p q r [[a b] c] [A [B [C [[D1 [D2 D3]] E]]]]. unfold nz1. tauto. Qed.
Lemma link_sum : forall p q r (pts : list (vec3 R)) ts l, s_soup pts ts = Some l -> s_closed_surface ts -> (forall t, In t l -> s_general p q r t) ->
  (s_zsum (map (segt q r) l) + s_zsum (map (segt r p) l) + s_zsum (map (segt p q) l) = 0)%Z.
Proof.
  intros p q r pts ts l S C G. rewrite <- !zsum_map2. rewrite <- (closed_points pts ts l (fun a b => seg a b p q r) S C); [|intros; apply seg_anti].
  f_equal. apply map_ext_in. intros [[a b] c] I. unfold segt. rewrite (link p q r a b c (G _ I)). lia.
Qed.
(** moving the point along a path that meets no triangle does not change the crossing number *)
Lemma joined_sum : forall q (pts : list (vec3 R)) ts l, s_soup pts ts = Some l -> s_closed_surface ts -> forall p p', s_joined l q p p' ->
  s_zsum (map (segt p q) l) = s_zsum (map (segt p' q) l).
Proof.
  intros q pts ts l S C p p' J. induction J as [|p p' p'' CL G J IH]; [reflexivity|]. rewrite <- IH.
  pose proof (link_sum p p' q pts ts l S C G) as L.
  rewrite (clear_segs p p' l) in L by (auto; intros t I; apply (general_nz1 p p' q t (G t I))).
  assert (E : s_zsum (map (segt q p) l) = (- s_zsum (map (segt p q) l))%Z).
  { clear. induction l as [|[[a b] c] l IH]; [reflexivity|]. unfold s_zsum in *. cbn [map fold_right]. rewrite IH. unfold segt at 1 3. rewrite seg_anti. lia. }
  lia.
Qed.
Lemma generic_nz1 : forall p q t, s_generic p q t -> nz1 p q t.
Proof.
  intros p q [[a b] c] G. destruct G as [A [B [C [D _]]]]. pose proof e16_pos as E. unfold nz1.
  assert (NZ : forall x, 1 / 10 ^ 16 < Rabs x -> x <> 0) by (intros x X ->; rewrite Rabs_R0 in X; lra).
  apply NZ in A, B, C, D. repeat split; auto; intros X; apply D; rewrite X; ring.
Qed.
