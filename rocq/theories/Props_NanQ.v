(** * C122: containment and ball queries with NaN coordinates *)
From Coq Require Import ZArith NArith List Bool Lia.
From Flocq Require Import BinarySingleNaN.
From Verif Require Import Num MathTypes Outcome Mesh Spec ShapeQuery SpecNanQ P_Mesh Props_Mesh P_Query Props_Query P_Mesh.
Import ListNotations.
Local Open Scope num_scope.

Definition nn (x : F64) : Prop := is_nan x = true.
Lemma nn_is : forall x, nn x -> x = B754_nan.
Proof. intros [| | |] H; try discriminate H. reflexivity. Qed.
Lemma nn_add : forall x y : F64, nn x \/ nn y -> nn (x + y).
Proof. intros x y [H|H]; rewrite (nn_is _ H); [destruct y|destruct x]; reflexivity. Qed.
Lemma nn_sub : forall x y : F64, nn x \/ nn y -> nn (x - y).
Proof. intros x y [H|H]; rewrite (nn_is _ H); [destruct y|destruct x]; reflexivity. Qed.
Lemma nn_mul : forall x y : F64, nn x \/ nn y -> nn (x * y).
Proof. intros x y [H|H]; rewrite (nn_is _ H); [destruct y|destruct x]; reflexivity. Qed.
Lemma nn_div : forall x y : F64, nn x \/ nn y -> nn (x / y).
Proof. intros x y [H|H]; rewrite (nn_is _ H); [destruct y|destruct x]; reflexivity. Qed.
Lemma nn_sqrt : forall x : F64, nn x -> nn (nsqrt x).
Proof. intros x H. rewrite (nn_is _ H). reflexivity. Qed.
Lemma nn_ltb : forall x y : F64, nn x \/ nn y -> nltb x y = false.
Proof. intros x y [H|H]; rewrite (nn_is _ H); [destruct y|destruct x]; reflexivity. Qed.
Lemma nn_leb : forall x y : F64, nn x \/ nn y -> nleb x y = false.
Proof. intros x y [H|H]; rewrite (nn_is _ H); [destruct y|destruct x]; reflexivity. Qed.
Definition someN := s_some_nan.
Lemma someN_sub : forall v w, someN v \/ someN w -> someN (vsub v w).
Proof. intros v w [[H|[H|H]]|[H|[H|H]]]; [left|right; left|right; right|left|right; left|right; right]; apply nn_sub; unfold nn; auto. Qed.
Lemma nn_dot : forall v w, someN v \/ someN w -> nn (vdot v w).
Proof.
  intros v w H. change (vdot v w) with (vx v * vx w + vy v * vy w + vz v * vz w).
  destruct H as [[H|[H|H]]|[H|[H|H]]].
  1,4: apply nn_add; left; apply nn_add; left; apply nn_mul; unfold nn; auto.
  1,3: apply nn_add; left; apply nn_add; right; apply nn_mul; unfold nn; auto.
  all: apply nn_add; right; apply nn_mul; unfold nn; auto.
Qed.
Lemma someN_cross : forall v w, nn (vx w) -> nn (vy w) -> nn (vz w) -> someN (vcross v w).
Proof. intros v w X Y Z. left. apply nn_sub. left. apply nn_mul. right. exact Z. Qed.

(** ** containment *)
Lemma side_nan : forall l s : ls F64, someN (ls_u l) \/ someN (ls_u s) -> nn (sideProduct l s).
Proof. intros l s [H|H]; unfold sideProduct; apply nn_add; [left|right]; apply nn_dot; auto. Qed.
Lemma tri_skip : forall pts (p p_out : vec3 F64) t h v1 v2 v3, point_at pts (ti1 t) = Some v1 -> point_at pts (ti2 t) = Some v2 -> point_at pts (ti3 t) = Some v3 ->
  someN p \/ someN v1 \/ someN v2 \/ someN v3 -> contains_tri pts p p_out t h = Ret (Some h).
Proof.
  intros pts p p_out t h v1 v2 v3 E1 E2 E3 H. unfold contains_tri. rewrite E1, E2, E3. cbn [or_ub obind]. cbv zeta.
  assert (S : nn (sideProduct (LS p p_out) (LS v1 v2)) \/ nn (sideProduct (LS p p_out) (LS v2 v3))).
  { destruct H as [H|[H|[H|H]]]; [left|left|left|right]; apply side_nan; [left|right|right|right]; unfold ls_u; cbn [ls_a ls_b]; apply someN_sub; auto. }
  destruct S as [S|S].
  - rewrite !(nn_leb (- eps16) (sideProduct (LS p p_out) (LS v1 v2))), !(nn_leb (sideProduct (LS p p_out) (LS v1 v2)) eps16) by auto. reflexivity.
  - rewrite !(nn_leb (- eps16) (sideProduct (LS p p_out) (LS v2 v3))), !(nn_leb (sideProduct (LS p p_out) (LS v2 v3)) eps16) by auto. rewrite !andb_false_r. reflexivity.
Qed.
Lemma valid_tail : forall n (t : triI) ts, s_valid n (map idx (t :: ts)) -> s_valid n (map idx ts).
Proof. intros n t ts W i j k H. apply W. right. auto. Qed.
Lemma loop_nan : forall pts (p p_out : vec3 F64) ts h, someN p -> s_valid (length pts) (map idx ts) -> h_count h = 0%Z -> contains_loop pts p p_out ts h = Ret false.
Proof.
  intros pts p p_out ts h N. induction ts as [|t ts IH]; intros W Z; [cbn; rewrite Z; reflexivity|].
  destruct (valid_lookup _ _ _ t W (or_introl eq_refl)) as [x [y [z [X [Y Z']]]]]. cbn [contains_loop]. rewrite (tri_skip pts p p_out t h x y z X Y Z' (or_introl N)). cbn [obind]. apply IH; [eapply valid_tail; eassumption|exact Z].
Qed.

(** a point with a NaN coordinate is in no shape, whatever the mesh *)
Theorem C122_contains : forall (m : mesh F64) p, valid_mesh m -> s_some_nan p -> mesh_contains m p = Ret false.
Proof. intros m p V N. unfold mesh_contains. destruct (nltb _ _); [reflexivity|]. apply loop_nan; auto. Qed.

(** triangles with a NaN corner count for nothing in containment: leaving out some or all of them changes no answer *)
Theorem C122_triangles : forall (m : mesh F64) p ts, valid_mesh m -> s_without (fun t => s_nan_tri (m_points m) (idx t)) (m_tris m) ts ->
  mesh_contains (MkMesh (m_points m) ts (m_r m) (m_r2 m) (m_tc m)) p = mesh_contains m p.
Proof.
  intros m p ts V H. unfold mesh_contains. cbn [m_points m_tris].
  assert (E1 : fst (getSquaredMaxRadius (MkMesh (m_points m) ts (m_r m) (m_r2 m) (m_tc m))) = fst (getSquaredMaxRadius m)) by (unfold getSquaredMaxRadius; cbn [m_points m_tris m_r m_r2 m_tc]; destruct (neqb _ _); reflexivity).
  assert (E2 : fst (getMaxRadius (MkMesh (m_points m) ts (m_r m) (m_r2 m) (m_tc m))) = fst (getMaxRadius m)) by (unfold getMaxRadius, getSquaredMaxRadius; cbn [m_points m_tris m_r m_r2 m_tc]; destruct (neqb (m_r m) n0); [|reflexivity]; destruct (neqb (m_r2 m) n0); reflexivity).
  rewrite E1, E2. clear E1 E2. destruct (nltb _ _); [reflexivity|]. cbv zeta.
  generalize (V3 (nlit 11 10 * fst (getMaxRadius m)) n0 n0) as p_out. intros p_out. generalize (Hits 0 (fun _ _ => 0%Z) (fun _ => 0%Z)) as h. unfold valid_mesh in V. revert V.
  induction H as [|t l l' H IH|t l l' D H IH]; intros V h; [reflexivity| |].
  - cbn [contains_loop]. destruct (contains_tri (m_points m) p p_out t h) as [[h'|]| | |]; cbn [obind]; auto. apply IH. eapply valid_tail; eassumption.
  - rewrite (IH (valid_tail _ _ _ V)). destruct (valid_lookup _ _ _ t V (or_introl eq_refl)) as [x [y [z [X [Y Z]]]]].
    cbn [contains_loop]. rewrite (tri_skip (m_points m) p p_out t h x y z X Y Z); [reflexivity|]. right.
    destruct D as [n [v [I [E N]]]]. unfold point_at in X, Y, Z. destruct I as [<-|[<-|[<-|[]]]].
    + left. rewrite X in E. injection E as <-. exact N.
    + right. left. rewrite Y in E. injection E as <-. exact N.
    + right. right. rewrite Z in E. injection E as <-. exact N.
Qed.

(** ** balls *)
Lemma nn_line : forall (p : vec3 F64) r2 a ab, someN p -> checkLinesegment p r2 a ab = false.
Proof.
  intros p r2 a ab N. unfold checkLinesegment. cbv zeta. assert (A : someN (vsub p a)) by (apply someN_sub; auto).
  assert (D : nn (vdot ab (vsub p a))) by (apply nn_dot; auto). rewrite (nn_ltb _ n0) by auto. rewrite (nn_leb (vdot ab (vsub p a) * vdot ab (vsub p a) / vlength2 ab)); [reflexivity|]. left. apply nn_div. left. apply nn_mul. auto.
Qed.
Lemma nn_len2 : forall v : vec3 F64, someN v -> nn (vlength2 v).
Proof. intros v N. change (vlength2 v) with (vdot v v). apply nn_dot. auto. Qed.
Lemma nn_tri : forall (p : vec3 F64) r2 v1 v2 v3, someN p -> sphere_tri p r2 v1 v2 v3 = false.
Proof.
  intros p r2 v1 v2 v3 N. unfold sphere_tri. assert (A : forall v, nn (vlength2 (vsub v p))) by (intros v; apply nn_len2, someN_sub; auto).
  rewrite !(nn_ltb (vlength2 _)) by auto. cbv zeta. rewrite !nn_line by auto.
  set (n := vcross (vsub v2 v1) (vsub v3 v2)). set (d := vdot (vsub v1 p) n). assert (D : nn d) by (apply nn_dot; left; apply someN_sub; auto).
  set (pd := d * d / vlength2 n). assert (P : nn pd) by (apply nn_div; left; apply nn_mul; auto). rewrite (nn_ltb r2 pd) by auto.
  set (q := vsub p (vscale (vnormalized n) (nsqrt pd))). assert (Q : nn (vx q) /\ nn (vy q) /\ nn (vz q)).
  { split; [|split]; (apply nn_sub; right; apply nn_mul; right; apply nn_sqrt; auto). }
  clearbody q. destruct Q as [Q1 [Q2 Q3]]. rewrite (nn_ltb n0); [reflexivity|]. right. apply nn_dot. left. apply someN_cross; apply nn_sub; auto.
Qed.
(** a ball whose centre has a NaN coordinate intersects nothing, whatever the mesh and the radius *)
Theorem C122_ball : forall (m : mesh F64) p r, valid_mesh m -> s_some_nan p -> mesh_sphere m p r = Ret false.
Proof.
  intros m p r V N. unfold mesh_sphere. destruct (nltb _ _); [reflexivity|]. rewrite (C122_contains m p V N).
  assert (L : forall ts r2, s_valid (length (m_points m)) (map idx ts) -> sphere_loop (m_points m) p r2 ts = Ret false).
  { induction ts as [|t ts IH]; intros r2 W; [reflexivity|]. destruct (valid_lookup _ _ _ t W (or_introl eq_refl)) as [x [y [z [X [Y Z]]]]].
    cbn [sphere_loop]. rewrite X, Y, Z. cbn [or_ub obind]. rewrite (nn_tri p r2 x y z N). apply IH. eapply valid_tail; eassumption. }
  destruct (nltb _ _); [rewrite L by exact V|]; reflexivity.
Qed.
(** with a NaN radius the answer is that of containment *)
Theorem C122_radius : forall (m : mesh F64) p r, is_nan r = true -> mesh_sphere m p r = mesh_contains m p.
Proof.
  intros m p r N. unfold mesh_sphere. rewrite (nn_ltb _ (vlength p - r)) by (right; apply nn_sub; right; exact N). rewrite (nn_ltb n0 r) by (right; exact N). reflexivity.
Qed.

(** a mesh with a NaN corner: one triangle of numbers, one with a NaN corner *)
Definition nanF : F64 := B754_nan.
Definition nan_ops : list (mesh_op F64) := [OAddPoint (V3 (f 0) (f 0) (f 0)); OAddPoint (V3 (f 1) (f 0) (f 0)); OAddPoint (V3 (f 0) (f 1) (f 0)); OAddPoint (V3 nanF (f 0) (f 0)); OAddTriangle 0 1 2; OAddTriangle 0 1 3].
Example C122_nonvacuous : exists m : mesh F64, mesh_run mesh_new nan_ops = Ret m /\ valid_mesh m /\ s_some_nan (V3 (f 0) nanF (f 0)) /\ s_nan_tri (m_points m) (0, 1, 3)%N /\
  (exists ts, s_without (fun t => s_nan_tri (m_points m) (idx t)) (m_tris m) ts /\ length ts = 1%nat /\ length (m_tris m) = 2%nat) /\
  mesh_sphere m (V3 (f 0) nanF (f 0)) (f 5) = Ret false /\ mesh_sphere m (V3 (f 0) (f 0) (f 0)) (f 5) = Ret true.
Proof.
  eexists. split; [reflexivity|]. cbn [m_points m_tris].
  assert (NT : s_nan_tri [V3 (f 0) (f 0) (f 0); V3 (f 1) (f 0) (f 0); V3 (f 0) (f 1) (f 0); V3 nanF (f 0) (f 0)] (0, 1, 3)%N).
  { exists 3%N, (V3 nanF (f 0) (f 0)). split; [right; right; left; reflexivity|]. split; [reflexivity|left; reflexivity]. }
  split; [|split; [|split; [|split; [|split]]]].
  - intros i j k H. destruct H as [H|[H|[]]]; injection H as <- <- <-; cbn; lia.
  - right. left. reflexivity.
  - exact NT.
  - eexists. split; [apply wo_keep; apply wo_drop; [exact NT|apply wo_nil]|split; reflexivity].
  - vm_compute. reflexivity.
  - vm_compute. reflexivity.
Qed.
Print Assumptions C122_contains.
Print Assumptions C122_triangles.
Print Assumptions C122_ball.
Print Assumptions C122_radius.
