(** * C110: printed values can be read back *)
From Coq Require Import String Ascii NArith ZArith List Lia Bool.
From Verif Require Import Num MathTypes Matrix Mesh SpecPrint Print P_Print.
Import ListNotations.
Local Open Scope string_scope.

Local Lemma lit1 : forall c c' s, s_space c = false -> s_space c' = true -> s_words (String c (String c' s)) = String c "" :: s_words s.
Proof. intros c c' s A B. apply (words_tok (String c "") c' s); [|exact B]. split; [discriminate|]. cbn. rewrite A. reflexivity. Qed.
Local Lemma lit2 : forall c d c' s, s_space c = false -> s_space d = false -> s_space c' = true ->
  s_words (String c (String d (String c' s))) = String c (String d "") :: s_words s.
Proof. intros c d c' s A A' B. apply (words_tok (String c (String d "")) c' s); [|exact B]. split; [discriminate|]. cbn. rewrite A, A'. reflexivity. Qed.
Local Lemma lit3 : forall c d e c' s, s_space c = false -> s_space d = false -> s_space e = false -> s_space c' = true ->
  s_words (String c (String d (String e (String c' s)))) = String c (String d (String e "")) :: s_words s.
Proof. intros c d e c' s A A' A'' B. apply (words_tok (String c (String d (String e ""))) c' s); [|exact B]. split; [discriminate|]. cbn. rewrite A, A', A''. reflexivity. Qed.
Local Ltac rd K := repeat first
  [ rewrite words_sp by reflexivity | rewrite lit1 by reflexivity | rewrite lit2 by reflexivity | rewrite lit3 by reflexivity
  | rewrite words_tok by (first [apply K|reflexivity]) ]; try reflexivity.
Local Ltac text := unfold pr_trans2, pr_trans3, pr_tri, pr_vec2, pr_vec3, pr_mat2, pr_mat3, pr_quat, pr_avec, pr_amat, pr_atr, pr_triI, sh, tab, nl;
  rewrite ?app_assoc_s; cbn [append].

Section Components.
  Context {T : Type} (show : T -> string) (K : forall x, s_token (show x)).

  (** vectors and quaternions: the components in the order x, y, z, w between brackets *)
  Theorem C110_vectors : (forall v, s_words (pr_vec2 show v) = ["["; show (v2x v); show (v2y v); "]"]) /\
    (forall v, s_words (pr_vec3 show v) = ["["; show (vx v); show (vy v); show (vz v); "]"]) /\
    (forall q, s_words (pr_quat show q) = ["["; show (qx q); show (qy q); show (qz q); show (qw q); "]"]).
  Proof. repeat split; intros v; text; rd K. Qed.
  (** matrices: row by row, rows separated by semicolons *)
  Theorem C110_matrices : (forall m, s_words (pr_mat2 show m) = ["["; show (m2xx m); show (m2xy m); ";"; show (m2yx m); show (m2yy m); "]"]) /\
    (forall m, s_words (pr_mat3 show m) =
      ["["; show (mxx m); show (mxy m); show (mxz m); ";"; show (myx m); show (myy m); show (myz m); ";"; show (mzx m); show (mzy m); show (mzz m); "]"]).
  Proof. repeat split; intros v; text; rd K. Qed.
  (** transforms: the translation, then the rotation *)
  Theorem C110_transforms : (forall t, s_words (pr_trans2 show t) = "t:" :: s_words (pr_vec2 show (t2t t)) ++ "R:" :: s_words (pr_mat2 show (t2R t)))%list /\
    (forall t, s_words (pr_trans3 show t) = "t:" :: s_words (pr_vec3 show (MathTypes.tt t)) ++ "R:" :: s_words (pr_mat3 show (tR t)))%list.
  Proof.
    destruct C110_vectors as [V2 [V3 _]]. destruct C110_matrices as [M2 M3].
    split; intros t; [rewrite V2, M2|rewrite V3, M3]; text; rd K.
  Qed.
  (** triangles: the corners in order; the closing bracket is glued to that of the last corner *)
  Theorem C110_triangle : forall t, s_words (pr_tri show t) =
    (["Triangle:"; "["; "p1:"] ++ s_words (pr_vec3 show (tp1 t)) ++ "p2:" :: s_words (pr_vec3 show (tp2 t)) ++
     ["p3:"; "["; show (vx (tp3 t)); show (vy (tp3 t)); show (vz (tp3 t)); "]]"])%list.
  Proof.
    destruct C110_vectors as [_ [V3 _]]. intros t. rewrite !V3. text.
    match goal with |- s_words ?s = _ => match s with String "T" (String _ (String _ (String _ (String _ (String _ (String _ (String _ (String _ (String _ ?r))))))))) =>
      change s with ("Triangle:" ++ String " " r) end end.
    rewrite words_tok; [|split; [discriminate|reflexivity]|reflexivity]. rd K.
  Qed.
  (** the classes of matrix.h *)
  Theorem C110_matrix_h : forall dflt,
    (forall a b c, s_words (pr_avec show dflt [a; b; c]) = ["["; show a; show b; show c; "]"]) /\
    (forall a b c d e f g h i, s_words (pr_amat show dflt [a; b; c; d; e; f; g; h; i]) =
      ["["; show a; show b; show c; show d; show e; show f; show g; show h; show i; "]"]) /\
    (forall a b c d e f g h i x y z, s_words (pr_atr show dflt (ATr [x; y; z] [a; b; c; d; e; f; g; h; i])) =
      ["["; show a; show b; show c; "["; show x; "]"; show d; show e; show f; "["; show y; "]"; show g; show h; show i; "]"; "["; show z; "]"]).
  Proof. intros dflt. repeat split; intros; text; cbn [nth a_r a_o]; rd K. Qed.

  (** when different components print differently, so do different values *)
  Theorem C110_injective : (forall a b, show a = show b -> a = b) ->
    (forall v w, pr_vec2 show v = pr_vec2 show w -> v = w) /\ (forall v w, pr_vec3 show v = pr_vec3 show w -> v = w) /\
    (forall v w, pr_quat show v = pr_quat show w -> v = w) /\ (forall v w, pr_mat2 show v = pr_mat2 show w -> v = w) /\
    (forall v w, pr_mat3 show v = pr_mat3 show w -> v = w) /\ (forall v w, pr_trans2 show v = pr_trans2 show w -> v = w) /\
    (forall v w, pr_trans3 show v = pr_trans3 show w -> v = w) /\ (forall v w, pr_tri show v = pr_tri show w -> v = w).
  Proof.
    intros I. destruct C110_vectors as [V2 [V3 VQ]]. destruct C110_matrices as [M2 M3]. destruct C110_transforms as [S2 S3].
    repeat split; intros v w H; apply (f_equal s_words) in H; rewrite ?S2, ?S3, ?C110_triangle, ?V2, ?V3, ?VQ, ?M2, ?M3 in H; cbn [List.app] in H; injection H; clear H; intros;
    repeat match goal with E : show _ = show _ |- _ => apply I in E end.
    - destruct v, w; cbn in *; congruence.
    - destruct v, w; cbn in *; congruence.
    - destruct v, w; cbn in *; congruence.
    - destruct v, w; cbn in *; congruence.
    - destruct v, w; cbn in *; congruence.
    - destruct v as [[] []], w as [[] []]; cbn in *; congruence.
    - destruct v as [[] []], w as [[] []]; cbn in *; congruence.
    - destruct v as [[] [] []], w as [[] [] []]; cbn in *; congruence.
  Qed.
End Components.

(** index triples: the three numbers can be read back *)
Theorem C110_indices : forall t, exists a b c, s_words (pr_triI t) = ["["; a; b; c; "]"] /\
  s_number a = Some (ti1 t) /\ s_number b = Some (ti2 t) /\ s_number c = Some (ti3 t).
Proof.
  intros t. exists (show_u (ti1 t)), (show_u (ti2 t)), (show_u (ti3 t)). split; [|repeat split; apply show_u_number]. text. rd show_u_token.
Qed.

(** a printer of components that satisfies the hypotheses, and texts *)
Example C110_nonvacuous : (forall n, s_token (show_u n)) /\ (forall a b, show_u a = show_u b -> a = b) /\
  pr_triI (TI 0 12 4294967295) = "[ 0 12 4294967295 ]" /\ pr_mat2 show_u (M2 1 2 3 4)%N = "[ 1 2 ; 3 4  ]" /\
  s_words (pr_vec3 show_u (V3 7 0 10)%N) = ["["; "7"; "0"; "10"; "]"].
Proof.
  split; [exact show_u_token|]. split; [intros a b H; apply (f_equal s_number) in H; rewrite !show_u_number in H; congruence|]. repeat split.
Qed.

Print Assumptions C110_vectors.
Print Assumptions C110_matrices.
Print Assumptions C110_transforms.
Print Assumptions C110_triangle.
Print Assumptions C110_matrix_h.
Print Assumptions C110_injective.
Print Assumptions C110_indices.
