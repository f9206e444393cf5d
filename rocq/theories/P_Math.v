(** Lemmas about math_types.h over the reals. *)
From Coq Require Import Reals ZArith Lra Lia Bool Psatz.
From Verif Require Import Num MathTypes Spec P_Tac.
Local Open Scope R_scope.

Ltac unmath := unfold t2apply, t2mul, t2inverse, t2inverseTimes, t2rot, t2make, t2identity,
  tapply, tmul, tinverse, tinverseTimes, tmake, tidentity, tproj2, t2proj3, m3proj2, m2proj3,
  m2mulv, m2mul, m2transpose, m2identity, m3mulv, m3mul, m3transpose, m3identity, m3cols,
  m3column, m3row, m3get, m3scale, m3add, m3sub,
  vadd, vsub, vscale, vdivs, vopp, vdot, vcross, vlength2, vlength, vproj2, v2proj3,
  v2add, v2sub, v2scale, v2divs, v2opp, v2dot, v2cross, v2length2, v2length,
  qlength2, qlength, qdot, qscale in *; unR; fields.
Ltac unspec := unfold s_norm2, s_dist2, s_dot, s_det, col1, col2, col3, q_norm2, q_inv, q_of_vec,
  hamilton, q_neg, rot_x, rot_y, rot_z in *; fields.
Ltac poly := intros; dvec; unmath; unspec; fields; repeat (f_equal; []); try (f_equal; ring); try ring.

Lemma sqrt_sq : forall x, 0 <= x -> sqrt x * sqrt x = x.
Proof. intros; apply sqrt_sqrt; auto. Qed.

(** ** Transform algebra *)
Lemma tapply_tmul : forall (a b : trans3 R) v, tapply (tmul a b) v = tapply a (tapply b v).
Proof. poly. Qed.
Lemma tmul_assoc : forall a b c : trans3 R, tmul (tmul a b) c = tmul a (tmul b c).
Proof. intros; dvec; unmath. f_equal; f_equal; ring. Qed.
Lemma tmul_id_l : forall a : trans3 R, tmul tidentity a = a.
Proof. intros; dvec; unmath. f_equal; f_equal; ring. Qed.
Lemma tmul_id_r : forall a : trans3 R, tmul a tidentity = a.
Proof. intros; dvec; unmath. f_equal; f_equal; ring. Qed.
Lemma tapply_id : forall v : vec3 R, tapply tidentity v = v.
Proof. poly. Qed.

(** ** Rotations *)
Record rot_facts (m : mat3 R) : Prop := {
  rf_c11 : mxx m * mxx m + myx m * myx m + mzx m * mzx m = 1;
  rf_c22 : mxy m * mxy m + myy m * myy m + mzy m * mzy m = 1;
  rf_c33 : mxz m * mxz m + myz m * myz m + mzz m * mzz m = 1;
  rf_c12 : mxx m * mxy m + myx m * myy m + mzx m * mzy m = 0;
  rf_c13 : mxx m * mxz m + myx m * myz m + mzx m * mzz m = 0;
  rf_c23 : mxy m * mxz m + myy m * myz m + mzy m * mzz m = 0;
  rf_r11 : mxx m * mxx m + mxy m * mxy m + mxz m * mxz m = 1;
  rf_r22 : myx m * myx m + myy m * myy m + myz m * myz m = 1;
  rf_r33 : mzx m * mzx m + mzy m * mzy m + mzz m * mzz m = 1;
  rf_r12 : mxx m * myx m + mxy m * myy m + mxz m * myz m = 0;
  rf_r13 : mxx m * mzx m + mxy m * mzy m + mxz m * mzz m = 0;
  rf_r23 : myx m * mzx m + myy m * mzy m + myz m * mzz m = 0;
  rf_fxx : mxx m = myy m * mzz m - myz m * mzy m;
  rf_fxy : mxy m = myz m * mzx m - myx m * mzz m;
  rf_fxz : mxz m = myx m * mzy m - myy m * mzx m;
  rf_fyx : myx m = mxz m * mzy m - mxy m * mzz m;
  rf_fyy : myy m = mxx m * mzz m - mxz m * mzx m;
  rf_fyz : myz m = mxy m * mzx m - mxx m * mzy m;
  rf_fzx : mzx m = mxy m * myz m - mxz m * myy m;
  rf_fzy : mzy m = mxz m * myx m - mxx m * myz m;
  rf_fzz : mzz m = mxx m * myy m - mxy m * myx m
}.

Lemma rotation_facts : forall m, rotation m -> rot_facts m.
Proof.
  intros m [H1 H2 H3 H4 H5 H6 D]. destruct m as [a b c d e f g h i]. unspec.
  (* columns u=(a,d,g) v=(b,e,h) w=(c,f,i); adjugate entries *)
  remember (e*i - f*h) as A eqn:HA. remember (f*g - d*i) as B eqn:HB. remember (d*h - e*g) as C eqn:HC.
  remember (c*h - b*i) as D1 eqn:HD1. remember (a*i - c*g) as E eqn:HE. remember (b*g - a*h) as F eqn:HF.
  remember (b*f - c*e) as G eqn:HG. remember (c*d - a*f) as H eqn:HH. remember (a*e - b*d) as I eqn:HI.
  (* M * adj = I *)
  assert (P11: a*A + b*B + c*C = 1) by (rewrite HA,HB,HC; clear -D; lra).
  assert (P12: a*D1 + b*E + c*F = 0) by (rewrite HD1,HE,HF; clear -D; ring).
  assert (P13: a*G + b*H + c*I = 0) by (rewrite HG,HH,HI; clear -D; ring).
  assert (P21: d*A + e*B + f*C = 0) by (rewrite HA,HB,HC; clear -D; ring).
  assert (P22: d*D1 + e*E + f*F = 1) by (rewrite HD1,HE,HF; clear -D; lra).
  assert (P23: d*G + e*H + f*I = 0) by (rewrite HG,HH,HI; clear -D; ring).
  assert (P31: g*A + h*B + i*C = 0) by (rewrite HA,HB,HC; clear -D; ring).
  assert (P32: g*D1 + h*E + i*F = 0) by (rewrite HD1,HE,HF; clear -D; ring).
  assert (P33: g*G + h*H + i*I = 1) by (rewrite HG,HH,HI; clear -D; lra).
  (* M^T = M^T M adj = adj *)
  assert (Ea : a = A).
  { transitivity (a*(a*A + b*B + c*C) + d*(d*A + e*B + f*C) + g*(g*A + h*B + i*C)); [rewrite P11,P21,P31; ring|].
    transitivity ((a*a+d*d+g*g)*A + (a*b+d*e+g*h)*B + (a*c+d*f+g*i)*C); [ring|rewrite H1,H4,H5; ring]. }
  assert (Ed : d = D1).
  { transitivity (a*(a*D1 + b*E + c*F) + d*(d*D1 + e*E + f*F) + g*(g*D1 + h*E + i*F)); [rewrite P12,P22,P32; ring|].
    transitivity ((a*a+d*d+g*g)*D1 + (a*b+d*e+g*h)*E + (a*c+d*f+g*i)*F); [ring|rewrite H1,H4,H5; ring]. }
  assert (Eg : g = G).
  { transitivity (a*(a*G + b*H + c*I) + d*(d*G + e*H + f*I) + g*(g*G + h*H + i*I)); [rewrite P13,P23,P33; ring|].
    transitivity ((a*a+d*d+g*g)*G + (a*b+d*e+g*h)*H + (a*c+d*f+g*i)*I); [ring|rewrite H1,H4,H5; ring]. }
  assert (Eb : b = B).
  { transitivity (b*(a*A + b*B + c*C) + e*(d*A + e*B + f*C) + h*(g*A + h*B + i*C)); [rewrite P11,P21,P31; ring|].
    transitivity ((a*b+d*e+g*h)*A + (b*b+e*e+h*h)*B + (b*c+e*f+h*i)*C); [ring|rewrite H2,H4,H6; ring]. }
  assert (Ee : e = E).
  { transitivity (b*(a*D1 + b*E + c*F) + e*(d*D1 + e*E + f*F) + h*(g*D1 + h*E + i*F)); [rewrite P12,P22,P32; ring|].
    transitivity ((a*b+d*e+g*h)*D1 + (b*b+e*e+h*h)*E + (b*c+e*f+h*i)*F); [ring|rewrite H2,H4,H6; ring]. }
  assert (Eh : h = H).
  { transitivity (b*(a*G + b*H + c*I) + e*(d*G + e*H + f*I) + h*(g*G + h*H + i*I)); [rewrite P13,P23,P33; ring|].
    transitivity ((a*b+d*e+g*h)*G + (b*b+e*e+h*h)*H + (b*c+e*f+h*i)*I); [ring|rewrite H2,H4,H6; ring]. }
  assert (Ec : c = C).
  { transitivity (c*(a*A + b*B + c*C) + f*(d*A + e*B + f*C) + i*(g*A + h*B + i*C)); [rewrite P11,P21,P31; ring|].
    transitivity ((a*c+d*f+g*i)*A + (b*c+e*f+h*i)*B + (c*c+f*f+i*i)*C); [ring|rewrite H3,H5,H6; ring]. }
  assert (Ef : f = F).
  { transitivity (c*(a*D1 + b*E + c*F) + f*(d*D1 + e*E + f*F) + i*(g*D1 + h*E + i*F)); [rewrite P12,P22,P32; ring|].
    transitivity ((a*c+d*f+g*i)*D1 + (b*c+e*f+h*i)*E + (c*c+f*f+i*i)*F); [ring|rewrite H3,H5,H6; ring]. }
  assert (Ei : i = I).
  { transitivity (c*(a*G + b*H + c*I) + f*(d*G + e*H + f*I) + i*(g*G + h*H + i*I)); [rewrite P13,P23,P33; ring|].
    transitivity ((a*c+d*f+g*i)*G + (b*c+e*f+h*i)*H + (c*c+f*f+i*i)*I); [ring|rewrite H3,H5,H6; ring]. }
  clear D.
  constructor; fields.
  1-6: assumption.
  1: (rewrite <- Ea, <- Eb, <- Ec in P11; exact P11).
  1: (rewrite <- Ed, <- Ee, <- Ef in P22; exact P22).
  1: (rewrite <- Eg, <- Eh, <- Ei in P33; exact P33).
  1: (rewrite <- Ed, <- Ee, <- Ef in P12; exact P12).
  1: (rewrite <- Eg, <- Eh, <- Ei in P13; exact P13).
  1: (rewrite <- Eg, <- Eh, <- Ei in P23; exact P23).
  all: congruence.
Qed.

Lemma rotation_of_facts : forall m, 
  mxx m * mxx m + myx m * myx m + mzx m * mzx m = 1 ->
  mxy m * mxy m + myy m * myy m + mzy m * mzy m = 1 ->
  mxz m * mxz m + myz m * myz m + mzz m * mzz m = 1 ->
  mxx m * mxy m + myx m * myy m + mzx m * mzy m = 0 ->
  mxx m * mxz m + myx m * myz m + mzx m * mzz m = 0 ->
  mxy m * mxz m + myy m * myz m + mzy m * mzz m = 0 ->
  mxx m * (myy m * mzz m - mzy m * myz m) - myx m * (mxy m * mzz m - mzy m * mxz m)
    + mzx m * (mxy m * myz m - myy m * mxz m) = 1 -> rotation m.
Proof. intros. constructor; unspec; lra. Qed.

Ltac rotfacts H := let F := fresh "RF" in pose proof (rotation_facts _ H) as F; destruct F as [rc11 rc22 rc33 rc12 rc13 rc23 rr11 rr22 rr33 rr12 rr13 rr23 fxx fxy fxz fyx fyy fyz fzx fzy fzz].

Lemma rotation_transpose : forall m : mat3 R, rotation m -> rotation (m3transpose m).
Proof.
  intros m H. rotfacts H. destruct H. destruct m; unspec; fields.
  apply rotation_of_facts; unfold m3transpose; fields; try lra.
Qed.

Lemma rotation_identity : rotation m3identity.
Proof. apply rotation_of_facts; unmath; lra. Qed.

Lemma transpose_mul_l : forall m : mat3 R, rotation m -> m3mul (m3transpose m) m = m3identity.
Proof. intros m H. rotfacts H. destruct m; unmath. f_equal; lra. Qed.
Lemma transpose_mul_r : forall m : mat3 R, rotation m -> m3mul m (m3transpose m) = m3identity.
Proof. intros m H. rotfacts H. destruct m; unmath. f_equal; lra. Qed.
Lemma m3mulv_assoc : forall (a b : mat3 R) v, m3mulv (m3mul a b) v = m3mulv a (m3mulv b v).
Proof. poly. Qed.
Lemma m3mulv_id : forall v : vec3 R, m3mulv m3identity v = v.
Proof. poly. Qed.
Lemma m3mul_assoc : forall a b c : mat3 R, m3mul (m3mul a b) c = m3mul a (m3mul b c).
Proof. intros; dvec; unmath. f_equal; ring. Qed.

Lemma rot_dot : forall m (a b : vec3 R), rotation m -> s_dot (m3mulv m a) (m3mulv m b) = s_dot a b.
Proof.
  intros m a b H. rotfacts H. destruct a as [a1 a2 a3], b as [b1 b2 b3], m as [p q r s t u v w x]. unmath; unspec.
  transitivity ((p*p+s*s+v*v)*(a1*b1) + (q*q+t*t+w*w)*(a2*b2) + (r*r+u*u+x*x)*(a3*b3)
    + (p*q+s*t+v*w)*(a1*b2+a2*b1) + (p*r+s*u+v*x)*(a1*b3+a3*b1) + (q*r+t*u+w*x)*(a2*b3+a3*b2)).
  - ring.
  - rewrite rc12, rc13, rc23, rc11, rc22, rc33. ring.
Qed.

Lemma det_mulv : forall (m : mat3 R) a b c,
  s_det (m3mulv m a) (m3mulv m b) (m3mulv m c) = s_det (col1 m) (col2 m) (col3 m) * s_det a b c.
Proof. poly. Qed.

Lemma cols_mul : forall a b : mat3 R,
  col1 (m3mul a b) = m3mulv a (col1 b) /\ col2 (m3mul a b) = m3mulv a (col2 b) /\ col3 (m3mul a b) = m3mulv a (col3 b).
Proof. intros; dvec; unmath; unspec; repeat split; f_equal; ring. Qed.

Lemma rotation_mul : forall a b : mat3 R, rotation a -> rotation b -> rotation (m3mul a b).
Proof.
  intros a b Ha Hb. destruct (cols_mul a b) as [E1 [E2 E3]].
  constructor; rewrite ?E1, ?E2, ?E3, ?det_mulv, ?rot_dot by assumption; try apply Hb.
  rewrite (rot_det _ Ha), (rot_det _ Hb). ring.
Qed.

Lemma tinverse_l : forall t : trans3 R, rigid t -> tmul (tinverse t) t = tidentity.
Proof.
  intros t H. unfold rigid in H. rotfacts H. destruct t as [[a b c d e f g h i] [x y z]]. unmath.
  f_equal; f_equal; try ring; try lra.
Qed.
Lemma tinverse_r : forall t : trans3 R, rigid t -> tmul t (tinverse t) = tidentity.
Proof.
  intros t H. unfold rigid in H. rotfacts H. destruct t as [[a b c d e f g h i] [x y z]]. unmath.
  f_equal; f_equal; try lra.
  - transitivity (x - ((a*a+b*b+c*c)*x + (a*d+b*e+c*f)*y + (a*g+b*h+c*i)*z)); [ring|].
    rewrite rr11, rr12, rr13; ring.
  - transitivity (y - ((a*d+b*e+c*f)*x + (d*d+e*e+f*f)*y + (d*g+e*h+f*i)*z)); [ring|].
    rewrite rr22, rr12, rr23; ring.
  - transitivity (z - ((a*g+b*h+c*i)*x + (d*g+e*h+f*i)*y + (g*g+h*h+i*i)*z)); [ring|].
    rewrite rr33, rr13, rr23; ring.
Qed.
Lemma tinverse_apply : forall (t : trans3 R) v, rigid t -> tapply (tinverse t) (tapply t v) = v.
Proof. intros. rewrite <- tapply_tmul, tinverse_l, tapply_id; auto. Qed.
Lemma tapply_inverse : forall (t : trans3 R) v, rigid t -> tapply t (tapply (tinverse t) v) = v.
Proof. intros. rewrite <- tapply_tmul, tinverse_r, tapply_id; auto. Qed.
Lemma rigid_inverse : forall t, rigid t -> rigid (tinverse t).
Proof. intros t H. unfold rigid, tinverse; fields. apply rotation_transpose; auto. Qed.
Lemma rigid_mul : forall a b, rigid a -> rigid b -> rigid (tmul a b).
Proof. intros a b H1 H2. unfold rigid, tmul; fields. apply rotation_mul; auto. Qed.
Lemma rigid_identity : rigid tidentity.
Proof. unfold rigid, tidentity; fields. apply rotation_identity. Qed.

Lemma tinverse_involutive : forall t : trans3 R, rigid t -> tinverse (tinverse t) = t.
Proof.
  intros t H. unfold rigid in H.
  assert (E : m3mulv (tR t) (m3mulv (m3transpose (tR t)) (tt t)) = tt t)
    by (rewrite <- m3mulv_assoc, transpose_mul_r, m3mulv_id; auto).
  destruct t as [[a b c d e f g h i] [x y z]]. unmath. injection E as E1 E2 E3. f_equal. apply V3_eq; lra.
Qed.

Lemma apply_sub : forall (t : trans3 R) a b, vsub (tapply t a) (tapply t b) = m3mulv (tR t) (vsub a b).
Proof. poly. Qed.
Lemma dist2_sub : forall a b : vec3 R, s_dist2 a b = s_dot (vsub a b) (vsub a b).
Proof. poly. Qed.
Lemma rigid_dist2 : forall t a b, rigid t -> s_dist2 (tapply t a) (tapply t b) = s_dist2 a b.
Proof. intros. rewrite !dist2_sub, apply_sub. apply rot_dot; auto. Qed.

Lemma rot_cross : forall m (a b : vec3 R), rotation m ->
  vcross (m3mulv m a) (m3mulv m b) = m3mulv m (vcross a b).
Proof.
  intros m a b H. rotfacts H. destruct a as [a1 a2 a3], b as [b1 b2 b3], m as [p q r s t u v w x]. unmath.
  apply V3_eq.
  - transitivity ((t*x-u*w)*(a2*b3-a3*b2) + (u*v-s*x)*(a3*b1-a1*b3) + (s*w-t*v)*(a1*b2-a2*b1)); [ring|].
    rewrite <- fxx, <- fxy, <- fxz; ring.
  - transitivity ((r*w-q*x)*(a2*b3-a3*b2) + (p*x-r*v)*(a3*b1-a1*b3) + (q*v-p*w)*(a1*b2-a2*b1)); [ring|].
    rewrite <- fyx, <- fyy, <- fyz; ring.
  - transitivity ((q*u-r*t)*(a2*b3-a3*b2) + (r*s-p*u)*(a3*b1-a1*b3) + (p*t-q*s)*(a1*b2-a2*b1)); [ring|].
    rewrite <- fzx, <- fzy, <- fzz; ring.
Qed.

(** ** Roll, pitch, yaw *)
Lemma cs2 : forall a, cos a * cos a = 1 - sin a * sin a.
Proof. intros. pose proof (sin2_cos2 a). unfold Rsqr in *. lra. Qed.

Lemma rpy_apply : forall r p y v, m3mulv (m3rpy r p y) v = rot_z y (rot_y p (rot_x r v)).
Proof. intros; dvec; unfold m3rpy; unmath; unspec. apply V3_eq; ring. Qed.

Lemma rot_xyz_dot : forall r p y v w,
  s_dot (rot_z y (rot_y p (rot_x r v))) (rot_z y (rot_y p (rot_x r w))) = s_dot v w.
Proof.
  assert (X: forall r v w, s_dot (rot_x r v) (rot_x r w) = s_dot v w).
  { intros; dvec; unspec. generalize (cs2 r). generalize (cos r) (sin r). intros c s Hc.
    ring_simplify. replace (c^2) with (1 - s*s) by (rewrite <- Hc; ring). ring. }
  assert (Y: forall r v w, s_dot (rot_y r v) (rot_y r w) = s_dot v w).
  { intros; dvec; unspec. generalize (cs2 r). generalize (cos r) (sin r). intros c s Hc.
    ring_simplify. replace (c^2) with (1 - s*s) by (rewrite <- Hc; ring). ring. }
  assert (Z: forall r v w, s_dot (rot_z r v) (rot_z r w) = s_dot v w).
  { intros; dvec; unspec. generalize (cs2 r). generalize (cos r) (sin r). intros c s Hc.
    ring_simplify. replace (c^2) with (1 - s*s) by (rewrite <- Hc; ring). ring. }
  intros. rewrite Z, Y, X. reflexivity.
Qed.
Lemma rot_xyz_det : forall r p y u v w,
  s_det (rot_z y (rot_y p (rot_x r u))) (rot_z y (rot_y p (rot_x r v))) (rot_z y (rot_y p (rot_x r w))) = s_det u v w.
Proof.
  assert (X: forall r u v w, s_det (rot_x r u) (rot_x r v) (rot_x r w) = s_det u v w).
  { intros; dvec; unspec. generalize (cs2 r). generalize (cos r) (sin r). intros c s Hc.
    ring_simplify. replace (c^2) with (1 - s*s) by (rewrite <- Hc; ring). ring. }
  assert (Y: forall r u v w, s_det (rot_y r u) (rot_y r v) (rot_y r w) = s_det u v w).
  { intros; dvec; unspec. generalize (cs2 r). generalize (cos r) (sin r). intros c s Hc.
    ring_simplify. replace (c^2) with (1 - s*s) by (rewrite <- Hc; ring). ring. }
  assert (Z: forall r u v w, s_det (rot_z r u) (rot_z r v) (rot_z r w) = s_det u v w).
  { intros; dvec; unspec. generalize (cs2 r). generalize (cos r) (sin r). intros c s Hc.
    ring_simplify. replace (c^2) with (1 - s*s) by (rewrite <- Hc; ring). ring. }
  intros. rewrite Z, Y, X. reflexivity.
Qed.
Lemma col_mulv : forall m : mat3 R, col1 m = m3mulv m (V3 1 0 0) /\ col2 m = m3mulv m (V3 0 1 0) /\ col3 m = m3mulv m (V3 0 0 1).
Proof. intros; dvec; unmath; unspec; repeat split; f_equal; ring. Qed.

Lemma rotation_rpy : forall r p y, rotation (m3rpy r p y).
Proof.
  intros. destruct (col_mulv (m3rpy r p y)) as [E1 [E2 E3]].
  constructor; rewrite ?E1, ?E2, ?E3, ?rpy_apply, ?rot_xyz_dot, ?rot_xyz_det; unspec; ring.
Qed.
