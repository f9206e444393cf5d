(** Roll-pitch-yaw extraction and quaternions. *)
From Coq Require Import Reals ZArith Lra Lia Psatz.
From Verif Require Import Num MathTypes Spec P_Tac P_Math P_Trig.
Local Open Scope R_scope.

Lemma Rdiv_one : forall x, x / 1 = x.
Proof. intros; field. Qed.

Lemma sumsq0 : forall a b, a*a + b*b = 0 -> a = 0 /\ b = 0.
Proof. intros; split; nra. Qed.
Lemma nz_sum : forall a b c, a*a + b*b = c -> c <> 0 -> a <> 0 \/ b <> 0.
Proof. intros. destruct (Req_dec a 0); [|auto]. right. intro. subst. lra. Qed.
Lemma sq_one : forall a, a*a = 1 -> a <> 1 -> a = -1.
Proof. intros. assert ((a-1)*(a+1) = 0) by lra. destruct (Rmult_integral _ _ H1); lra. Qed.

Lemma rpy_roundtrip : forall r p y t,
  - PI < r <= PI -> - (PI/2) < p <= PI/2 - 1/1000000000000 -> - PI < y <= PI ->
  tgetRPY (T3 (m3rpy r p y) t) = (r, p, y).
Proof.
  intros r p y t Hr Hp Hy. unfold tgetRPY, m3rpy. unR. fields.
  assert (Hc : 0 < cos p) by (apply cos_gt_0; lra).
  assert (E : sqrt (cos p * sin r * (cos p * sin r) + cos p * cos r * (cos p * cos r)) = cos p).
  { replace (cos p * sin r * (cos p * sin r) + cos p * cos r * (cos p * cos r)) with (cos p * cos p).
    apply sqrt_square; lra. transitivity (cos p * cos p * (sin r * sin r + cos r * cos r)).
    pose proof (sin2_cos2 r); unfold Rsqr in *; rewrite H; ring. ring. }
  pose proof PI_RGT_0.
  assert (P : Ratan2 (- - sin p) (cos p) = p).
  { replace (- - sin p) with (1 * sin p) by ring. replace (cos p) with (1 * cos p) by ring.
    apply atan2_polar; lra. }
  rewrite E, P.
  rcase.
  - exfalso. rewrite Rabs_left1 in Hc0 by lra. lra.
  - rewrite !atan2_polar by lra. reflexivity.
Qed.

Lemma getRPY_rebuild : forall m t r p y, rotation m ->
  tgetRPY (T3 m t) = (r, p, y) ->
  mzx m <> 1 -> (mzx m = -1 \/ p <= PI/2 - 1/1000000000000) ->
  m3rpy r p y = m.
Proof.
  intros m t r p y H E NS BAND. rotfacts H. destruct m as [xx xy xz yx yy yz zx zy zz]. unfold tgetRPY in E. unR. fields.
  remember (sqrt (zy*zy + zz*zz)) as n eqn:Dn.
  assert (Hn2 : n * n = zy*zy+zz*zz) by (rewrite Dn; apply sqrt_sq; nra).
  assert (Hn : 0 <= n) by (rewrite Dn; apply sqrt_pos).
  assert (NZ : n <> 0 \/ - zx <> 0).
  { apply nz_sum with 1; lra. }
  destruct (atan2_cos_sin (-zx) n NZ) as [C S].
  replace (n * n + - zx * - zx) with 1 in C, S by lra. rewrite sqrt_1, Rdiv_one in C, S.
  pose proof PI_RGT_0.
  pose proof (atan2_nonneg_range (-zx) n Hn) as RG.
  remember (Ratan2 (-zx) n) as th eqn:Dth.
  revert E. rcase; intros E; injection E as <- <- <-; rename Hc into B.
  - assert (zx = -1).
    { destruct BAND; auto. exfalso. rewrite Rabs_left1 in B by lra. lra. }
    clear fxx fxy fyx fyy fzx fzy fzz H.
    subst zx. assert (ZZ : n * n = 0) by lra.
    destruct (sumsq0 zy zz); [lra|]. clear Dn. subst zy zz.
    destruct (sumsq0 xx yx); [lra|]. subst xx yx.
    destruct (sumsq0 n 0); [lra|].
    assert (NZ2 : yy <> 0 \/ - xy <> 0) by (apply nz_sum with 1; lra).
    destruct (atan2_cos_sin (-xy) yy NZ2) as [C2 S2].
    replace (yy*yy + - xy * - xy) with 1 in C2, S2 by lra. rewrite sqrt_1, Rdiv_one in C2, S2.
    unfold m3rpy; unR. rewrite C, S, C2, S2, cos_0, sin_0, H. f_equal; lra.
  - assert (0 < n).
    { destruct (Req_dec n 0) as [N0|]; [|lra]. exfalso.
      assert (Zx : zx = -1) by (apply sq_one; [rewrite N0 in Hn2; lra|auto]).
      assert (TH : th = PI/2).
      { rewrite Dth. unfold Ratan2. rewrite N0, Zx. destruct (Rlt_dec 0 0); [lra|]. destruct (Rlt_dec 0 (- -1)); lra. }
      rewrite TH in B. rewrite Rminus_eq_0, Rabs_R0 in B. lra. }
    assert (NZ3 : zz <> 0 \/ zy <> 0) by (apply nz_sum with (n*n); [lra|apply Rmult_integral_contrapositive; split; lra]).
    destruct (atan2_cos_sin zy zz NZ3) as [C3 S3].
    replace (zz*zz+zy*zy) with (zy*zy+zz*zz) in C3, S3 by ring. rewrite <- Dn in C3, S3.
    assert (Hxy : xx*xx + yx*yx = n*n) by lra.
    assert (NZ4 : xx <> 0 \/ yx <> 0) by (apply nz_sum with (n*n); [lra|apply Rmult_integral_contrapositive; split; lra]).
    destruct (atan2_cos_sin yx xx NZ4) as [C4 S4].
    rewrite Hxy, sqrt_square in C4, S4 by lra.
    unfold m3rpy; unR. rewrite C, S, C3, S3, C4, S4.
    assert (Hnn : n*n = 1 - zx*zx) by lra.
    f_equal; try (field; lra).
    + transitivity ((- zx*zy*xx - zz*yx)/(n*n)); [field; lra|].
      replace (- zx*zy*xx - zz*yx) with (xy * (n*n)); [field; lra|].
      rewrite Hnn. assert (zx * (yz - xy*zx + xx*zy) = 0) by (rewrite fyz; ring). lra.
    + transitivity ((- zx*zz*xx + zy*yx)/(n*n)); [field; lra|].
      replace (- zx*zz*xx + zy*yx) with (xz * (n*n)); [field; lra|].
      rewrite Hnn. assert (zx * (yy - (xx*zz - xz*zx)) = 0) by (rewrite fyy; ring). lra.
    + transitivity ((- zx*zy*yx + zz*xx)/(n*n)); [field; lra|].
      replace (- zx*zy*yx + zz*xx) with (yy * (n*n)); [field; lra|].
      rewrite Hnn. assert (zx * (xz - (yx*zy - yy*zx)) = 0) by (rewrite fxz; ring). lra.
    + transitivity ((- zx*zz*yx - zy*xx)/(n*n)); [field; lra|].
      replace (- zx*zz*yx - zy*xx) with (yz * (n*n)); [field; lra|].
      rewrite Hnn. assert (zx * (xy - (yz*zx - yx*zz)) = 0) by (rewrite fxy; ring). lra.
Qed.

(** at pitch = -pi/2 only one rotation survives the round trip *)
Lemma getRPY_singular_minus : forall m t r p y, rotation m -> mzx m = 1 ->
  tgetRPY (T3 m t) = (r, p, y) -> (m3rpy r p y = m <-> myy m = 1).
Proof.
  intros m t r p y H Z E. rotfacts H. destruct m as [xx xy xz yx yy yz zx zy zz]. fields. clear fxx fxy fyx fyy fzx fzy fzz H. subst zx.
  destruct (sumsq0 zy zz); [lra|]. destruct (sumsq0 xx yx); [lra|]. subst xx yx zy zz.
  unfold tgetRPY in E. unR. fields. pose proof PI_RGT_0.
  replace (0 * 0 + 0 * 0) with 0 in E by ring. rewrite sqrt_0 in E.
  assert (P : Ratan2 (-(1)) 0 = - (PI/2)).
  { unfold Ratan2. destruct (Rlt_dec 0 0); [lra|]. destruct (Rlt_dec 0 (-(1))); [lra|].
    destruct (Rlt_dec (-(1)) 0); lra. }
  rewrite P in E.
  assert (A0 : Ratan2 0 0 = 0).
  { unfold Ratan2. destruct (Rlt_dec 0 0); [lra|]. reflexivity. }
  rewrite A0 in E.
  revert E. rcase; intros E.
  - exfalso. rename Hc into B. rewrite Rabs_left1 in B by lra. pose proof PI_4. pose proof PI2_1. lra.
  - injection E as <- <- <-. unfold m3rpy; unR. rewrite cos_0, sin_0, cos_neg, sin_neg, cos_PI2, sin_PI2.
    split; intros G.
    + injection G as. lra.
    + subst yy. destruct (sumsq0 xy 0); [lra|]. subst xy. f_equal; lra.
Qed.

(** ** Quaternions *)
Lemma setRotation_apply : forall q v, q_norm2 q <> 0 ->
  let r := hamilton (hamilton q (q_of_vec v)) (q_inv q) in
  qw r = 0 /\ m3mulv (m3setRotation q) v = V3 (qx r) (qy r) (qz r).
Proof.
  intros q v H r. unfold r. clear r. dvec. unfold m3setRotation. unmath. unspec.
  assert (D: qx * qx + qy * qy + qz * qz + qw * qw <> 0) by (intros E; apply H; lra).
  split. field; auto. apply V3_eq; field; auto.
Qed.

Lemma setRotation_rotation : forall q, q_norm2 q <> 0 -> rotation (m3setRotation q).
Proof.
  intros q H. dvec. unfold m3setRotation. unmath. unspec.
  assert (D: qx * qx + qy * qy + qz * qz + qw * qw <> 0) by (intros E; apply H; lra).
  apply rotation_of_facts; fields; field; auto.
Qed.

Lemma setRotation_scale : forall q k, q_norm2 q <> 0 -> k <> 0 ->
  m3setRotation (qscale q k) = m3setRotation q.
Proof.
  intros q k H K. dvec. unfold m3setRotation. unmath. unspec.
  assert (D: qx * qx + qy * qy + qz * qz + qw * qw <> 0) by (intros E; apply H; lra).
  assert (D2: qx * k * (qx * k) + qy * k * (qy * k) + qz * k * (qz * k) + qw * k * (qw * k) <> 0).
  { replace (qx * k * (qx * k) + qy * k * (qy * k) + qz * k * (qz * k) + qw * k * (qw * k))
      with (k * k * (qx * qx + qy * qy + qz * qz + qw * qw)) by ring.
    apply Rmult_integral_contrapositive. split; auto. }
  f_equal; field; auto.
Qed.

(** setRotation on a unit quaternion given through scaled components *)
Lemma setRotation_unit : forall x y z w, x*x + y*y + z*z + w*w = 1 ->
  m3setRotation (Q x y z w) =
  M3 (1 - 2*(y*y+z*z)) (2*(x*y - w*z)) (2*(x*z + w*y))
     (2*(x*y + w*z)) (1 - 2*(x*x+z*z)) (2*(y*z - w*x))
     (2*(x*z - w*y)) (2*(y*z + w*x)) (1 - 2*(x*x+y*y)).
Proof.
  intros. unfold m3setRotation. unmath. rewrite H. f_equal; field.
Qed.

Lemma getRotation_correct : forall m q0, rotation m ->
  q_norm2 (m3getRotation m q0) = 1 /\ m3setRotation (m3getRotation m q0) = m.
Proof.
  intros m q0 H. rotfacts H. destruct m as [xx xy xz yx yy yz zx zy zz]. destruct q0.
  unfold m3getRotation. unR. fields.
  assert (KEY : forall x y z w, 
     x*x + y*y + z*z + w*w = 1 ->
     1 - 2*(y*y+z*z) = xx -> 2*(x*y - w*z) = xy -> 2*(x*z + w*y) = xz ->
     2*(x*y + w*z) = yx -> 1 - 2*(x*x+z*z) = yy -> 2*(y*z - w*x) = yz ->
     2*(x*z - w*y) = zx -> 2*(y*z + w*x) = zy -> 1 - 2*(x*x+y*y) = zz ->
     q_norm2 (Q x y z w) = 1 /\ m3setRotation (Q x y z w) = M3 xx xy xz yx yy yz zx zy zz).
  { intros x y z w N1 E1 E2 E3 E4 E5 E6 E7 E8 E9. split. unspec; lra.
    rewrite setRotation_unit by auto. rewrite E1, E2, E3, E4, E5, E6, E7, E8, E9. reflexivity. }
  assert (HALF : 5 / 10 = / 2) by field. rewrite ?HALF.
  assert (DG : forall s t a b c : R, s*s = t -> 0 < t -> s <> 0 -> 
     (s/2)*(s/2) = t/4 /\ (s/2)*(a * (/2/s)) = a/4 /\ (a*(/2/s))*(b*(/2/s)) = a*b/(4*t) /\ (a*(/2/s))*(s/2) = a/4 /\ c = c).
  { intros s t a b c Hs Ht Hn. rewrite <- Hs. repeat split; try reflexivity; field; auto. }
  destruct (Rltb 0 (xx + yy + zz)) eqn:TR; rboolH.
  - set (t := xx + yy + zz + 1). assert (Ht : 0 < t) by (unfold t; lra).
    set (s := sqrt t). assert (Hs : s * s = t) by (apply sqrt_sq; lra).
    assert (Hn : s <> 0) by (intro E; rewrite E in Hs; lra).
    cbn [qset MathTypes.qx MathTypes.qy MathTypes.qz MathTypes.qw].
    pose proof (fun a b => DG s t a b 0 Hs Ht Hn) as D.
    assert (W2 : (s/2)*(s/2) = t/4) by (apply (D 0 0)).
    assert (WA : forall a, (s/2)*(a*(/2/s)) = a/4) by (intros; apply (D a 0)).
    assert (AB : forall a b, (a*(/2/s))*(b*(/2/s)) = a*b/(4*t)) by (intros; apply D).
    assert (tn : t <> 0) by lra.
    assert (K : forall a b c, a*b = c*t -> a*b/(4*t) = c/4) by (intros a b c E; rewrite E; field; auto).
    assert (Kxy : (zy-yz)*(xz-zx) = (xy+yx)*t) by (unfold t; lra).
    assert (Kxz : (zy-yz)*(yx-xy) = (xz+zx)*t) by (unfold t; lra).
    assert (Kyz : (xz-zx)*(yx-xy) = (yz+zy)*t) by (unfold t; lra).
    assert (Kxx : (zy-yz)*(zy-yz) = (1+xx-yy-zz)*t) by (unfold t; lra).
    assert (Kyy : (xz-zx)*(xz-zx) = (1-xx+yy-zz)*t) by (unfold t; lra).
    assert (Kzz : (yx-xy)*(yx-xy) = (1-xx-yy+zz)*t) by (unfold t; lra).
    apply KEY; rewrite ?AB, ?WA, ?W2;
      rewrite ?(K _ _ _ Kxx), ?(K _ _ _ Kyy), ?(K _ _ _ Kzz), ?(K _ _ _ Kxy), ?(K _ _ _ Kxz), ?(K _ _ _ Kyz);
      unfold t; lra.
  - assert (CASES : (Rltb xx yy = true /\ Rltb yy zz = true) \/ (Rltb xx yy = true /\ Rltb yy zz = false)
       \/ (Rltb xx yy = false /\ Rltb xx zz = true) \/ (Rltb xx yy = false /\ Rltb xx zz = false)).
    { destruct (Rltb xx yy), (Rltb yy zz), (Rltb xx zz); tauto. }
    assert (ZC : forall t, t = zz - xx - yy + 1 -> 0 < t -> 
       let s := sqrt t in
       q_norm2 (Q ((xz+zx)*(/2/s)) ((yz+zy)*(/2/s)) (s/2) ((yx-xy)*(/2/s))) = 1 /\
       m3setRotation (Q ((xz+zx)*(/2/s)) ((yz+zy)*(/2/s)) (s/2) ((yx-xy)*(/2/s))) = M3 xx xy xz yx yy yz zx zy zz).
    { intros t Et Ht s. assert (Hs : s * s = t) by (apply sqrt_sq; lra).
      assert (Hn : s <> 0) by (intro E; rewrite E in Hs; lra).
      pose proof (fun a b => DG s t a b 0 Hs Ht Hn) as D.
      assert (W2 : (s/2)*(s/2) = t/4) by (apply (D 0 0)).
      assert (WA : forall a, (s/2)*(a*(/2/s)) = a/4) by (intros; apply (D a 0)).
      assert (WB : forall a, (a*(/2/s))*(s/2) = a/4) by (intros; apply (D a 0)).
      assert (AB : forall a b, (a*(/2/s))*(b*(/2/s)) = a*b/(4*t)) by (intros; apply D).
      assert (tn : t <> 0) by lra.
      assert (K : forall a b c, a*b = c*t -> a*b/(4*t) = c/4) by (intros a b c E; rewrite E; field; auto).
      assert (K1 : (xz+zx)*(yz+zy) = (xy+yx)*t) by (rewrite Et; lra).
      assert (K2 : (yx-xy)*(xz+zx) = (zy-yz)*t) by (rewrite Et; lra).
      assert (K3 : (yx-xy)*(yz+zy) = (xz-zx)*t) by (rewrite Et; lra).
      assert (K4 : (xz+zx)*(xz+zx) = (1+xx-yy-zz)*t) by (rewrite Et; lra).
      assert (K5 : (yz+zy)*(yz+zy) = (1-xx+yy-zz)*t) by (rewrite Et; lra).
      assert (K6 : (yx-xy)*(yx-xy) = (1+xx+yy+zz)*t) by (rewrite Et; lra).
      apply KEY; rewrite ?AB, ?WA, ?WB, ?W2;
        rewrite ?(K _ _ _ K1), ?(K _ _ _ K2), ?(K _ _ _ K3), ?(K _ _ _ K4), ?(K _ _ _ K5), ?(K _ _ _ K6);
        lra. }
    assert (YC : forall t, t = yy - zz - xx + 1 -> 0 < t -> 
       let s := sqrt t in
       q_norm2 (Q ((xy+yx)*(/2/s)) (s/2) ((zy+yz)*(/2/s)) ((xz-zx)*(/2/s))) = 1 /\
       m3setRotation (Q ((xy+yx)*(/2/s)) (s/2) ((zy+yz)*(/2/s)) ((xz-zx)*(/2/s))) = M3 xx xy xz yx yy yz zx zy zz).
    { intros t Et Ht s. assert (Hs : s * s = t) by (apply sqrt_sq; lra).
      assert (Hn : s <> 0) by (intro E; rewrite E in Hs; lra).
      pose proof (fun a b => DG s t a b 0 Hs Ht Hn) as D.
      assert (W2 : (s/2)*(s/2) = t/4) by (apply (D 0 0)).
      assert (WA : forall a, (s/2)*(a*(/2/s)) = a/4) by (intros; apply (D a 0)).
      assert (WB : forall a, (a*(/2/s))*(s/2) = a/4) by (intros; apply (D a 0)).
      assert (AB : forall a b, (a*(/2/s))*(b*(/2/s)) = a*b/(4*t)) by (intros; apply D).
      assert (tn : t <> 0) by lra.
      assert (K : forall a b c, a*b = c*t -> a*b/(4*t) = c/4) by (intros a b c E; rewrite E; field; auto).
      assert (K1 : (xy+yx)*(zy+yz) = (xz+zx)*t) by (rewrite Et; lra).
      assert (K2 : (xz-zx)*(xy+yx) = (zy-yz)*t) by (rewrite Et; lra).
      assert (K3 : (xz-zx)*(zy+yz) = (yx-xy)*t) by (rewrite Et; lra).
      assert (K4 : (xy+yx)*(xy+yx) = (1+xx-yy-zz)*t) by (rewrite Et; lra).
      assert (K5 : (zy+yz)*(zy+yz) = (1-xx-yy+zz)*t) by (rewrite Et; lra).
      assert (K6 : (xz-zx)*(xz-zx) = (1+xx+yy+zz)*t) by (rewrite Et; lra).
      apply KEY; rewrite ?AB, ?WA, ?WB, ?W2;
        rewrite ?(K _ _ _ K1), ?(K _ _ _ K2), ?(K _ _ _ K3), ?(K _ _ _ K4), ?(K _ _ _ K5), ?(K _ _ _ K6);
        lra. }
    assert (XC : forall t, t = xx - yy - zz + 1 -> 0 < t -> 
       let s := sqrt t in
       q_norm2 (Q (s/2) ((yx+xy)*(/2/s)) ((zx+xz)*(/2/s)) ((zy-yz)*(/2/s))) = 1 /\
       m3setRotation (Q (s/2) ((yx+xy)*(/2/s)) ((zx+xz)*(/2/s)) ((zy-yz)*(/2/s))) = M3 xx xy xz yx yy yz zx zy zz).
    { intros t Et Ht s. assert (Hs : s * s = t) by (apply sqrt_sq; lra).
      assert (Hn : s <> 0) by (intro E; rewrite E in Hs; lra).
      pose proof (fun a b => DG s t a b 0 Hs Ht Hn) as D.
      assert (W2 : (s/2)*(s/2) = t/4) by (apply (D 0 0)).
      assert (WA : forall a, (s/2)*(a*(/2/s)) = a/4) by (intros; apply (D a 0)).
      assert (WB : forall a, (a*(/2/s))*(s/2) = a/4) by (intros; apply (D a 0)).
      assert (AB : forall a b, (a*(/2/s))*(b*(/2/s)) = a*b/(4*t)) by (intros; apply D).
      assert (tn : t <> 0) by lra.
      assert (K : forall a b c, a*b = c*t -> a*b/(4*t) = c/4) by (intros a b c E; rewrite E; field; auto).
      assert (K1 : (yx+xy)*(zx+xz) = (yz+zy)*t) by (rewrite Et; lra).
      assert (K2 : (zy-yz)*(yx+xy) = (xz-zx)*t) by (rewrite Et; lra).
      assert (K3 : (zy-yz)*(zx+xz) = (yx-xy)*t) by (rewrite Et; lra).
      assert (K4 : (yx+xy)*(yx+xy) = (1-xx+yy-zz)*t) by (rewrite Et; lra).
      assert (K5 : (zx+xz)*(zx+xz) = (1-xx-yy+zz)*t) by (rewrite Et; lra).
      assert (K6 : (zy-yz)*(zy-yz) = (1+xx+yy+zz)*t) by (rewrite Et; lra).
      apply KEY; rewrite ?AB, ?WA, ?WB, ?W2;
        rewrite ?(K _ _ _ K1), ?(K _ _ _ K2), ?(K _ _ _ K3), ?(K _ _ _ K4), ?(K _ _ _ K5), ?(K _ _ _ K6);
        lra. }
    cbv zeta in XC, YC, ZC.
    assert (TRL : -1 <= xx + yy + zz).
    { assert (Q1 : 0 <= (zy-yz)*(zy-yz)) by (apply Rle_0_sqr). assert (Q2 : 0 <= (xz-zx)*(xz-zx)) by (apply Rle_0_sqr).
      assert (Q3 : 0 <= (yx-xy)*(yx-xy)) by (apply Rle_0_sqr).
      assert (Q4 : (3 - (xx+yy+zz)) * (1 + xx + yy + zz) = (zy-yz)*(zy-yz) + (xz-zx)*(xz-zx) + (yx-xy)*(yx-xy)) by lra.
      clear - Q1 Q2 Q3 Q4 TR. nra. }
    destruct CASES as [[B1 B2]|[[B1 B2]|[[B1 B2]|[B1 B2]]]]; rewrite B1, B2;
      cbn [Nat.add Nat.modulo Nat.divmod Nat.sub Nat.mul m3get qset fst snd
           MathTypes.qx MathTypes.qy MathTypes.qz MathTypes.qw mxx mxy mxz myx myy myz mzx mzy mzz];
      rboolH.
    + apply ZC; lra.
    + apply YC; lra.
    + apply ZC; lra.
    + apply XC; lra.
Qed.

Lemma setRotation_inj : forall a b, q_norm2 a = 1 -> q_norm2 b = 1 ->
  m3setRotation a = m3setRotation b -> a = b \/ a = q_neg b.
Proof.
  intros [x y z w] [x' y' z' w'] Ha Hb E. unspec.
  rewrite !setRotation_unit in E by lra.
  injection E as E1 E2 E3 E4 E5 E6 E7 E8 E9.
  assert (x*x = x'*x') by lra. assert (y*y = y'*y') by lra. assert (z*z = z'*z') by lra. assert (w*w = w'*w') by lra.
  assert (x*y = x'*y') by lra. assert (x*z = x'*z') by lra. assert (y*z = y'*z') by lra.
  assert (w*x = w'*x') by lra. assert (w*y = w'*y') by lra. assert (w*z = w'*z') by lra.
  assert (SG : forall a a', a * a = a' * a' -> a = a' \/ a = - a').
  { intros a a' HH. assert ((a - a') * (a + a') = 0) by lra. destruct (Rmult_integral _ _ H9); [left|right]; lra. }
  assert (CANCEL : forall p a b, p <> 0 -> p * a = p * b -> a = b) by (intros; eapply Rmult_eq_reg_l; eauto).
  destruct (Req_dec w' 0) as [W|W]; [destruct (Req_dec x' 0) as [X|X]; [destruct (Req_dec y' 0) as [Y|Y]|]|].
  - assert (Zn : z' <> 0) by (intro; subst; lra). 
    destruct (sumsq0 w 0); [subst; lra|]. destruct (sumsq0 x y); [subst; lra|]. subst w x y w' x' y'.
    destruct (SG z z' H1); [left|right]; f_equal; lra.
  - destruct (sumsq0 w x); [subst; lra|]. subst w x w' x'.
    destruct (SG y y' H0); [left|right]; subst y; f_equal; try lra; apply (CANCEL y'); auto; lra.
  - destruct (sumsq0 w 0); [subst; lra|]. subst w w'.
    destruct (SG x x' H); [left|right]; subst x; f_equal; try lra; apply (CANCEL x'); auto; lra.
  - destruct (SG w w' H2); [left|right]; subst w; f_equal; try lra; apply (CANCEL w'); auto; lra.
Qed.

Lemma getRotation_setRotation : forall q q0, q_norm2 q = 1 ->
  m3getRotation (m3setRotation q) q0 = q \/ m3getRotation (m3setRotation q) q0 = q_neg q.
Proof.
  intros. assert (R : rotation (m3setRotation q)) by (apply setRotation_rotation; lra).
  destruct (getRotation_correct _ q0 R). apply setRotation_inj; auto.
Qed.

(** ** normalize *)
Lemma vlength_sq : forall v : vec3 R, vlength v * vlength v = s_norm2 v.
Proof. intros. dvec. unmath. unspec. apply sqrt_sq. nra. Qed.
Lemma vlength_nonneg : forall v : vec3 R, 0 <= vlength v.
Proof. intros. dvec. unmath. apply sqrt_pos. Qed.
Lemma vlength_pos : forall v : vec3 R, s_norm2 v <> 0 -> 0 < vlength v.
Proof.
  intros. pose proof (vlength_sq v). pose proof (vlength_nonneg v).
  destruct H1; auto. rewrite <- H1 in H0. lra.
Qed.
Lemma vnormalized_unit : forall v : vec3 R, s_norm2 v <> 0 ->
  s_norm2 (vnormalized v) = 1 /\ exists k, 0 < k /\ v = vscale (vnormalized v) k.
Proof.
  intros v H. pose proof (vlength_pos v H). pose proof (vlength_sq v).
  unfold vnormalized. set (n := vlength v) in *. clearbody n. dvec. unmath; unspec. split.
  - transitivity ((vx * vx + vy * vy + vz * vz) / (n*n)); [field; lra|]. rewrite H1. field; auto.
  - exists n. split; auto. apply V3_eq; field; lra.
Qed.

Lemma normalize_eq : forall m : mat3 R, m3normalize m = m3normalized m.
Proof. intros. unfold m3normalize, m3normalized, vnormalized. unmath. reflexivity. Qed.

Lemma vnormalized_scaled : forall x y z k, x*x + y*y + z*z = 1 -> 0 < k ->
  vnormalized (V3 (x*k) (y*k) (z*k)) = V3 x y z.
Proof.
  intros. unfold vnormalized, vlength. unR. fields.
  replace (x * k * (x * k) + y * k * (y * k) + z * k * (z * k)) with (k * k).
  - rewrite sqrt_square by lra. apply V3_eq; field; lra.
  - transitivity (k * k * (x*x+y*y+z*z)); [rewrite H|]; ring.
Qed.

Lemma normalize_scaled_rotation : forall m a b c, rotation m -> 0 < a -> 0 < b -> 0 < c ->
  m3normalized (m3mul m (M3 a 0 0 0 b 0 0 0 c)) = m.
Proof.
  intros m a b c H Ha Hb Hc. rotfacts H. destruct m as [xx xy xz yx yy yz zx zy zz]. fields.
  assert (E : m3mul (M3 xx xy xz yx yy yz zx zy zz) (M3 a 0 0 0 b 0 0 0 c)
            = M3 (xx*a) (xy*b) (xz*c) (yx*a) (yy*b) (yz*c) (zx*a) (zy*b) (zz*c)).
  { unfold m3mul. unR. fields. f_equal; ring. }
  rewrite E. unfold m3normalized, m3column, m3get. cbn [Nat.add]. fields.
  rewrite !vnormalized_scaled by auto. reflexivity.
Qed.

(** ** 2D *)
Lemma t2apply_mul : forall (a b : trans2 R) v, t2apply (t2mul a b) v = t2apply a (t2apply b v).
Proof. poly. Qed.
Lemma t2mul_assoc : forall a b c : trans2 R, t2mul (t2mul a b) c = t2mul a (t2mul b c).
Proof. intros; dvec; unmath. f_equal; f_equal; ring. Qed.
Lemma t2mul_id : forall a : trans2 R, t2mul t2identity a = a /\ t2mul a t2identity = a.
Proof. intros; dvec; unmath. split; f_equal; f_equal; ring. Qed.
Lemma rot2_rows : forall m, rotation2 m ->
  m2xx m * m2xx m + m2xy m * m2xy m = 1 /\ m2yx m * m2yx m + m2yy m * m2yy m = 1 /\
  m2xx m * m2yx m + m2xy m * m2yy m = 0 /\ m2xy m = - m2yx m /\ m2yy m = m2xx m.
Proof.
  intros [a b c d] [H1 H2 H3 H4]. fields.
  assert (d = a). { transitivity ((a*a+c*c)*d); [rewrite H1; ring|]. 
    transitivity (a*(a*d - b*c) + c*(a*b+c*d)); [ring|rewrite H4, H3; ring]. }
  assert (b = -c). { transitivity ((a*a+c*c)*b); [rewrite H1; ring|].
    transitivity (a*(a*b+c*d) - c*(a*d-b*c)); [ring|rewrite H4, H3; ring]. }
  subst. repeat split; lra.
Qed.
Lemma t2inverse_lr : forall t : trans2 R, rotation2 (t2R t) ->
  t2mul (t2inverse t) t = t2identity /\ t2mul t (t2inverse t) = t2identity.
Proof.
  intros t H. destruct (rot2_rows _ H) as [R1 [R2 [R3 [R4 R5]]]]. destruct H as [H1 H2 H3 H4].
  destruct t as [[a b c d] [x y]]. unmath. subst b d. split.
  - f_equal. f_equal; lra. apply V2_eq; ring.
  - f_equal. f_equal; lra.
    apply V2_eq.
    + transitivity (x - ((a*a+c*c)*x)); [ring|rewrite H1; ring].
    + transitivity (y - ((a*a+c*c)*y)); [ring|rewrite H1; ring].
Qed.
Lemma t2rot_rotation : forall yaw, rotation2 (t2rot yaw).
Proof.
  intros. pose proof (sin2_cos2 yaw). unfold Rsqr in *. constructor; unmath; lra.
Qed.
Lemma t2rotation_rot : forall x y yaw, - PI < yaw <= PI -> t2rotation (t2make x y yaw) = yaw.
Proof.
  intros. unfold t2rotation, t2make, t2rot. unR. fields.
  replace (sin yaw) with (1 * sin yaw) by ring. replace (cos yaw) with (1 * cos yaw) by ring.
  apply atan2_polar; lra.
Qed.
Lemma t2make_rotation : forall t : trans2 R, rotation2 (t2R t) ->
  t2make (v2x (t2t t)) (v2y (t2t t)) (t2rotation t) = t.
Proof.
  intros t H. destruct (rot2_rows _ H) as [R1 [R2 [R3 [R4 R5]]]]. destruct H as [H1 H2 H3 H4].
  destruct t as [[a b c d] [x y]]. unfold t2rotation, t2make, t2rot. unR. fields. subst b d.
  assert (NZ : a <> 0 \/ c <> 0) by (apply nz_sum with 1; lra).
  destruct (atan2_cos_sin c a NZ) as [C S]. rewrite H1, sqrt_1, Rdiv_one in C, S.
  rewrite C, S. reflexivity.
Qed.
Lemma proj3_mul : forall a b : trans2 R, t2proj3 (t2mul a b) = tmul (t2proj3 a) (t2proj3 b).
Proof. intros; dvec; unmath. f_equal; f_equal; ring. Qed.
Lemma proj3_inverse : forall a : trans2 R, t2proj3 (t2inverse a) = tinverse (t2proj3 a).
Proof. intros; dvec; unmath. f_equal; f_equal; ring. Qed.
Lemma proj3_apply : forall (a : trans2 R) v, tapply (t2proj3 a) (v2proj3 v) = v2proj3 (t2apply a v).
Proof. intros; dvec; unmath. apply V3_eq; ring. Qed.
Lemma proj23 : forall (a : trans2 R) (v : vec2 R), tproj2 (t2proj3 a) = a /\ vproj2 (v2proj3 v) = v.
Proof. intros; dvec; unmath; split; reflexivity. Qed.
Lemma proj3_rigid : forall a : trans2 R, rotation2 (t2R a) <-> rigid (t2proj3 a).
Proof.
  intros [[a b c d] v]. unfold rigid. unmath. split.
  - intros [H1 H2 H3 H4]. fields. apply rotation_of_facts; fields; lra.
  - intros [H1 H2 H3 H4 H5 H6 H7]. unspec. constructor; fields; lra.
Qed.
