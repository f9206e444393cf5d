(** * C103: merging of vertices on doubles *)
From Coq Require Import ZArith NArith List Bool Reals Lra Lia.
From Flocq Require Import Core BinarySingleNaN.
From Verif Require Import Num NumOrd MathTypes Outcome Mesh Import Spec SpecImport SpecRound P_Tac P_Math P_Mesh P_MeshFilter P_MeshGeo P_Round P_Depth P_PixF P_KeyF P_Import Props_Mesh.
Import ListNotations.
Local Open Scope R_scope.

(** one coordinate: the number of whole millimetres, or the next millimetre away from zero if the product with 1000 is rounded onto it *)
Definition s_mm_F (x : R) (z : Z) : Prop := mm_cell x z \/ (Rabs (1000 * x) <= Rabs (IZR z) /\ Rabs (IZR z - 1000 * x) <= uro * Rabs (1000 * x)).
Definition s_key_F (x : F64) (z : Z) : Prop := s_fin x /\ int_range z /\ s_mm_F (B2R x) z.
Lemma coord_mm : forall (x : F64) z, toint (nmul (nofZ 1000) x) = Some z -> s_key_F x z.
Proof.
  intros x z H. destruct (coord_F x z H) as [F [I [T [E M]]]]. split; auto. split; auto. unfold s_mm_F.
  destruct (trunc_rnd (1000 * B2R x)) as [Q|[Q1 Q2]]; [unfold uro in M; lra| |].
  - left. rewrite <- T, Q. destruct (trunc_bounds (1000 * B2R x)) as [A B]. split; auto. assert (0 <= B2R x * IZR (Ztrunc (1000 * B2R x)) * 1000) by lra. lra.
  - right. rewrite T in Q1. rewrite <- Q1. auto.
Qed.
Theorem C103_key : forall (v : vec3 F64) a b c, vert_key v = Some (a, b, c) -> s_key_F (vx v) a /\ s_key_F (vy v) b /\ s_key_F (vz v) c.
Proof.
  intros v a b c H. unfold vert_key in H. destruct (toint (nofZ 1000 * vx v)%num) as [x|] eqn:X; [|discriminate]. destruct (toint (nofZ 1000 * vy v)%num) as [y|] eqn:Y; [|discriminate].
  destruct (toint (nofZ 1000 * vz v)%num) as [z|] eqn:Z; [|discriminate]. injection H as <- <- <-. split; [|split]; apply coord_mm; assumption.
Qed.
(** every vertex within 2147 km has a key, so filtering such a mesh is not undefined *)
Theorem C103_defined : forall v : vec3 F64, s_finv v -> s_bound 2147483 (rv v) -> vert_key v <> None.
Proof.
  assert (K : forall x : F64, s_fin x -> Rabs (B2R x) <= 2147483 -> toint (nmul (nofZ 1000) x) <> None).
  { intros x F B H. destruct (ofZ_R 1000 ltac:(lia)) as [F1 V1]. assert (M : Rabs (1000 * B2R x) <= 2147483000) by (rewrite Rabs_mult, (Rabs_right 1000) by lra; lra).
    destruct (mul_R (nofZ 1000) x F1 F) as [F2 V2]; [rewrite V1; apply Rle_trans with (bpow radix2 31); [change (bpow radix2 31) with 2147483648; lra|apply bpow_le; lia]|]. rewrite V1 in V2.
    assert (R : Rabs (rnd (1000 * B2R x)) <= 2147483001). { pose proof (rnd_zmul 1000 (B2R x) (gen_B2R x)) as E. pose proof (Rabs_close _ _ _ _ E M) as C. unfold uro in C. lra. }
    assert (I : int_range (Ztrunc (rnd (1000 * B2R x)))).
    { unfold int_range. destruct (trunc_bounds (rnd (1000 * B2R x))) as [[L _] _]. rewrite <- abs_IZR in L. assert (Z.abs (Ztrunc (rnd (1000 * B2R x))) <= 2147483001)%Z by (apply le_IZR; lra). lia. }
    assert (T : toint (nmul (nofZ 1000) x) = Some (Ztrunc (rnd (1000 * B2R x)))) by (apply toint_F; rewrite V2; auto). congruence. }
  intros v [F1 [F2 F3]] [B1 [B2 B3]] H. cbn [rv vx vy vz] in *. apply K in F1; auto. apply K in F2; auto. apply K in F3; auto. unfold vert_key in H.
  destruct (toint (nofZ 1000 * vx v)%num); [|contradiction]. destruct (toint (nofZ 1000 * vy v)%num); [|contradiction]. destruct (toint (nofZ 1000 * vz v)%num); [discriminate|contradiction].
Qed.
(** merged coordinates: less than 2 mm + 1 nm apart, and less than 1 mm + 1 nm outside the zero cell *)
Definition s_merge_near (x y : R) : Prop := Rabs (x - y) < 2 / 1000 + / 1000000000 /\ (1 + / 1000000 <= Rabs (1000 * x) -> Rabs (x - y) < 1 / 1000 + / 1000000000).
Lemma merge_near : forall a b x y, Ztrunc a = Ztrunc b -> Rabs (a - 1000 * x) <= / 2000000 -> Rabs (b - 1000 * y) <= / 2000000 -> s_merge_near x y.
Proof.
  intros a b x y E A B. destruct (key_near a b (1000 * x) (1000 * y) (/ 2000000) E A B) as [C1 C2]. replace (1000 * x - 1000 * y) with (1000 * (x - y)) in * by ring. rewrite (Rabs_mult 1000 (x - y)), (Rabs_right 1000) in * by lra.
  split; [lra|]. intros G. specialize (C2 ltac:(lra)). lra.
Qed.
Lemma key_merge : forall (x y : F64) z, toint (nmul (nofZ 1000) x) = Some z -> toint (nmul (nofZ 1000) y) = Some z -> s_merge_near (B2R x) (B2R y).
Proof.
  intros x y z X Y. destruct (coord_F x z X) as [_ [_ [T1 [E1 M1]]]]. destruct (coord_F y z Y) as [_ [_ [T2 [E2 M2]]]]. apply (merge_near (rnd (1000 * B2R x)) (rnd (1000 * B2R y))); [congruence|lra|lra].
Qed.
Definition s_near3 (p q : vec3 F64) : Prop := s_merge_near (B2R (vx p)) (B2R (vx q)) /\ s_merge_near (B2R (vy p)) (B2R (vy q)) /\ s_merge_near (B2R (vz p)) (B2R (vz q)).
Lemma vert_merge : forall (p q : vec3 F64), vert_key p <> None -> vert_key p = vert_key q -> s_near3 p q.
Proof.
  intros p q N E. unfold vert_key in *. destruct (toint (nofZ 1000 * vx p)%num) as [x|] eqn:X; [|congruence]. destruct (toint (nofZ 1000 * vy p)%num) as [y|] eqn:Y; [|congruence]. destruct (toint (nofZ 1000 * vz p)%num) as [z|] eqn:Z; [|congruence].
  destruct (toint (nofZ 1000 * vx q)%num) as [x'|] eqn:X'; [|congruence]. destruct (toint (nofZ 1000 * vy q)%num) as [y'|] eqn:Y'; [|congruence]. destruct (toint (nofZ 1000 * vz q)%num) as [z'|] eqn:Z'; [|congruence].
  assert (x = x' /\ y = y' /\ z = z') as [<- [<- <-]] by (injection E as -> -> ->; auto). split; [|split]; eapply key_merge; eauto.
Qed.
Theorem C103_displacement : forall (m m' : mesh F64) l l', (N.of_nat (length (m_points m)) < 2 ^ 32)%N ->
  filterOverlapping m = Ret m' -> soup_of m = Some l -> soup_of m' = Some l' ->
  Forall2 (fun '(a, b, c) '(a', b', c') => s_near3 a a' /\ s_near3 b b' /\ s_near3 c c') l l'.
Proof.
  intros m m' l l' S H A B. pose proof (C15_filter _ _ m S) as F. rewrite H in F.
  destruct F as [F1 [F2 [F3 [l0 [L L']]]]]. rewrite A in L. injection L as <-. rewrite B in L'. injection L' as ->.
  assert (NR : forall p, In p (m_points m) -> s_near3 p (match rep (m_points m) p with Some q => q | None => p end)).
  { intros p P. specialize (F1 p P).
    assert (exists q, rep (m_points m) p = Some q) as [q Q].
    { unfold rep. destruct (find _ (m_points m)) as [q|] eqn:E; eauto. apply find_none with (x := p) in E; auto. rewrite keyb_refl in E. discriminate. }
    rewrite Q. unfold rep in Q. apply find_some in Q. destruct Q as [_ K]. apply keyb_eq in K. apply vert_merge; auto. }
  pose proof (fun a b c => soup_inT _ _ _ _ a b c A) as IN. clear -NR IN.
  induction l as [|[[a b] c] r IH]; constructor.
  - destruct (IN a b c (or_introl eq_refl)) as [I1 [I2 I3]]. cbn. auto.
  - apply IH. intros a' b' c' I. apply IN. right; auto.
Qed.
(** the import: the vertex used for v has scaled coordinates as close as that *)
Theorem C103_import : forall (scale v : vec3 F64) vs, In v vs -> imp_key scale v <> None ->
  let w := s_rep (imp_key scale) vs v in
  In w vs /\ s_merge_near (B2R (vx scale) * B2R (vx v)) (B2R (vx scale) * B2R (vx w)) /\ s_merge_near (B2R (vy scale) * B2R (vy v)) (B2R (vy scale) * B2R (vy w)) /\
  s_merge_near (B2R (vz scale) * B2R (vz v)) (B2R (vz scale) * B2R (vz w)).
Proof.
  intros scale v vs I N. unfold s_rep. destruct (find (fun w => s_keyb (imp_key scale v) (imp_key scale w)) vs) as [w|] eqn:F.
  2:{ exfalso. apply find_none with (x := v) in F; auto. rewrite (proj2 (keyb_spec _ _) eq_refl) in F. discriminate. }
  apply find_some in F. destruct F as [J F]. apply keyb_spec in F. split; auto.
  assert (K : forall s x y z, toint (nmul (nmul (nofZ 1000) s) x) = Some z -> toint (nmul (nmul (nofZ 1000) s) y) = Some z -> s_merge_near (B2R s * B2R x) (B2R s * B2R y)).
  { intros s x y z X Y. destruct (scoord_F s x z X) as [_ [_ [a [A1 A2]]]]. destruct (scoord_F s y z Y) as [_ [_ [b [B1 B2]]]]. apply (merge_near a b); congruence || auto. }
  unfold imp_key in *. destruct (toint (nofZ 1000 * vx scale * vx v)%num) as [x|] eqn:X; [|congruence]. destruct (toint (nofZ 1000 * vy scale * vy v)%num) as [y|] eqn:Y; [|congruence]. destruct (toint (nofZ 1000 * vz scale * vz v)%num) as [z|] eqn:Z; [|congruence].
  destruct (toint (nofZ 1000 * vx scale * vx w)%num) as [x'|] eqn:X'; [|congruence]. destruct (toint (nofZ 1000 * vy scale * vy w)%num) as [y'|] eqn:Y'; [|congruence]. destruct (toint (nofZ 1000 * vz scale * vz w)%num) as [z'|] eqn:Z'; [|congruence].
  assert (x = x' /\ y = y' /\ z = z') as [<- [<- <-]] by (injection F as -> -> ->; auto). split; [|split]; eapply K; eauto.
Qed.
Print Assumptions C103_key.
Print Assumptions C103_defined.
Print Assumptions C103_displacement.
Print Assumptions C103_import.

(** 4.35, the double just below 435/100, gets the key 4350, not 4349: the second case of C103_key happens *)
Definition x435 : F64 := nlit 435 100.
Example C103_rounds_up : vert_key (V3 x435 x435 x435) = Some (4350, 4350, 4350)%Z /\ 1000 * B2R x435 < 4350.
Proof.
  split; [vm_compute; reflexivity|]. assert (E : B2SF x435 = SpecFloat.S754_finite false 4897664594765414 (-50)) by (vm_compute; reflexivity).
  rewrite <- (SF2R_B2SF _ _ x435), E. unfold SF2R, F2R. cbn [Fnum Fexp cond_Zopp]. change (bpow radix2 (-50)) with (/ 1125899906842624). lra.
Qed.
(** a mesh of two triangles whose corners at 4.35 m and 4.3505 m are merged, and an import of the same vertices with a scale of 1 *)
Definition kv (x y z : F64) : vec3 F64 := V3 x y z.
Definition k_pts : list (vec3 F64) := [kv x435 n0 n0; kv (nlit 43505 10000) n0 n0; kv n0 n0 n0; kv n0 n1 n0].
Definition k_mesh : mesh F64 := MkMesh k_pts [TI 0 2 3; TI 1 2 3] n0 n0 [].
Example C103_nonvacuous : (exists m' l l', filterOverlapping k_mesh = Ret m' /\ length (m_points m') = 3%nat /\ soup_of k_mesh = Some l /\ soup_of m' = Some l' /\ length l = 2%nat) /\
  (exists v, In v k_pts /\ imp_key (kv n1 n1 n1) v = Some (4350, 0, 0)%Z) /\ (forall v, In v k_pts -> vert_key v <> None).
Proof.
  split; [|split].
  - destruct (oret_ex _ (filterOverlapping k_mesh) (fun m' => (Nat.eqb (length (m_points m')) 3 && match soup_of k_mesh, soup_of m' with Some l, Some l' => Nat.eqb (length l) 2 | _, _ => false end)%bool)) as [m' [M C]]; [vm_compute; reflexivity|].
    apply andb_prop in C as [C1 C2]. destruct (soup_of k_mesh) as [l|]; [|discriminate C2]. destruct (soup_of m') as [l'|] eqn:L'; [|discriminate C2].
    exists m', l, l'. apply Nat.eqb_eq in C1. apply Nat.eqb_eq in C2. auto.
  - exists (kv x435 n0 n0). split; [left; reflexivity|]. vm_compute. reflexivity.
  - assert (C : forallb (fun v => match vert_key v with Some _ => true | None => false end) k_pts = true) by (vm_compute; reflexivity).
    intros v I K. apply (proj1 (forallb_forall _ _) C) in I. rewrite K in I. discriminate.
Qed.
