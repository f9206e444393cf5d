(** * Stream printers
    The text appended to a stream by the operators <<.  [show] is the text the stream produces for one component: it depends on the component type and
    on the stream's precision and locale, which the operators leave alone.
    Simplification: a field width set on the stream (which would pad only the opening bracket) and a stream that fails are not represented; std::endl and
    '\n' both append a newline. *)
From Coq Require Import String Ascii NArith ZArith List DecimalString.
From Verif Require Import Num MathTypes Matrix Mesh.
Import ListNotations.
Local Open Scope string_scope.

Definition tab : string := String (ascii_of_nat 9) "".
Definition nl : string := String (ascii_of_nat 10) "".

Section Print.
  Context {T : Type} (show : T -> string).

  (** Vec2T, math_types.h:139-143 *)
  Definition pr_vec2 (v : vec2 T) : string := "[ " ++ show (v2x v) ++ " " ++ show (v2y v) ++ " ]".
  (** Vec3T, math_types.h:288-292 *)
  Definition pr_vec3 (v : vec3 T) : string := "[ " ++ show (vx v) ++ " " ++ show (vy v) ++ " " ++ show (vz v) ++ " ]".
  (** Mat2T, math_types.h:375-379; m[i] is the i-th component in memory, xx, xy, yx, yy *)
  Definition pr_mat2 (m : mat2 T) : string :=
    "[ " ++ show (m2xx m) ++ " " ++ show (m2xy m) ++ " ; " ++ show (m2yx m) ++ " " ++ show (m2yy m) ++ " " ++ " ]".
  (** QuaternionT, math_types.h:465-469 *)
  Definition pr_quat (q : quat T) : string := "[ " ++ show (qx q) ++ " " ++ show (qy q) ++ " " ++ show (qz q) ++ " " ++ show (qw q) ++ " ]".
  (** Mat3T, math_types.h:670-675 *)
  Definition pr_mat3 (m : mat3 T) : string :=
    "[ " ++ show (mxx m) ++ " " ++ show (mxy m) ++ " " ++ show (mxz m) ++ " ; " ++ show (myx m) ++ " " ++ show (myy m) ++ " " ++ show (myz m) ++ " ; " ++
    show (mzx m) ++ " " ++ show (mzy m) ++ " " ++ show (mzz m) ++ " ]".
  (** Transform2T, math_types.h:781-785 *)
  Definition pr_trans2 (t : trans2 T) : string := "t: " ++ pr_vec2 (t2t t) ++ (tab ++ "R: ") ++ pr_mat2 (t2R t).
  (** Transform3T, math_types.h:884-888 *)
  Definition pr_trans3 (t : trans3 T) : string := "t: " ++ pr_vec3 (MathTypes.tt t) ++ (tab ++ "R: ") ++ pr_mat3 (tR t).
  (** Triangle, Triangle.cpp:22-26 *)
  Definition pr_tri (t : tri T) : string :=
    "Triangle: [" ++ nl ++ "p1: " ++ pr_vec3 (tp1 t) ++ nl ++ "p2: " ++ pr_vec3 (tp2 t) ++ nl ++ "p3: " ++ pr_vec3 (tp3 t) ++ "]".

  (** the classes of matrix.h keep their components in arrays: [dflt] is never used for arrays of the length the classes have *)
  Context (dflt : T).
  Definition sh (l : list T) (i : nat) : string := show (nth i l dflt).
  (** Vector3, matrix.h:71-75 *)
  Definition pr_avec (v : list T) : string := "[ " ++ sh v 0 ++ " " ++ sh v 1 ++ " " ++ sh v 2 ++ " ]".
  (** Matrix3x3, matrix.h:154-160 *)
  Definition pr_amat (m : list T) : string :=
    "[ " ++ sh m 0 ++ " " ++ sh m 1 ++ " " ++ sh m 2 ++ nl ++ sh m 3 ++ " " ++ sh m 4 ++ " " ++ sh m 5 ++ nl ++
    sh m 6 ++ " " ++ sh m 7 ++ " " ++ sh m 8 ++ " ]".
  (** Transform, matrix.h:282-288 *)
  Definition pr_atr (t : atr T) : string :=
    "[ " ++ sh (a_r t) 0 ++ " " ++ sh (a_r t) 1 ++ " " ++ sh (a_r t) 2 ++ "   [ " ++ sh (a_o t) 0 ++ " ]" ++ nl ++
    sh (a_r t) 3 ++ " " ++ sh (a_r t) 4 ++ " " ++ sh (a_r t) 5 ++ "   [ " ++ sh (a_o t) 1 ++ " ]" ++ nl ++
    sh (a_r t) 6 ++ " " ++ sh (a_r t) 7 ++ " " ++ sh (a_r t) 8 ++ " ] [ " ++ sh (a_o t) 2 ++ " ]".
End Print.

(** an unsigned int on a stream with the default flags: decimal digits without leading zeros *)
Definition show_u (n : N) : string := NilEmpty.string_of_uint (N.to_uint n).
(** TriangleI, Mesh.h:20-24 *)
Definition pr_triI (t : triI) : string := "[ " ++ show_u (ti1 t) ++ " " ++ show_u (ti2 t) ++ " " ++ show_u (ti3 t) ++ " ]".
