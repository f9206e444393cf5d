(** * Number of triangles of the shapes of a program, without the model's shapes *)
From Coq Require Import List.
From Verif Require Import MathTypes Mesh Dispatch.
Import ListNotations.

(** for every shape: its class and the number of its triangles *)
Inductive s_kind := KPlain | KBox | KComp.
Definition s_put (l : list (s_kind * nat)) (i n : nat) : list (s_kind * nat) :=
  map (fun '(j, (k, c)) => if Nat.eqb j i then (k, n) else (k, c)) (combine (seq 0 (length l)) l).
Definition s_get (l : list (s_kind * nat)) (i : nat) : nat := snd (nth i l (KPlain, 0)).
Definition s_count_step {T} (l : list (s_kind * nat)) (o : vop T) : list (s_kind * nat) :=
  match o with
  | VNew => l ++ [(KPlain, 0)]
  | VNewBox _ _ => l ++ [(KBox, 12)]
  | VNewComp => l ++ [(KComp, 0)]
  | VSetMesh i m => match nth_error l i with Some (KPlain, _) => s_put l i (length (m_tris m)) | _ => l end
  | VSetMeshOf i j => match nth_error l i with Some (KPlain, _) => s_put l i (s_get l j) | _ => l end
  | VBBox _ => l
  | VEnclose i _ _ => s_put l i (s_get l i + 12)
  | VAdd i j _ => s_put l i (s_get l i + s_get l j)
  end.
Definition s_counts {T} (ops : list (vop T)) : list (s_kind * nat) := fold_left s_count_step ops [].

(** for every shape: is it a plain Shape; was a plain Shape added to it; does a plain Shape occur in it at any depth *)
Definition s_flag3 := (bool * bool * bool)%type.
Definition s_flag (l : list s_flag3) (i : nat) : s_flag3 := nth i l (false, false, false).
Definition s_plain_step {T} (l : list s_flag3) (o : vop T) : list s_flag3 :=
  match o with
  | VNew => l ++ [(true, false, true)]
  | VNewBox _ _ | VNewComp => l ++ [(false, false, false)]
  | VAdd i j _ =>
      let '(_, di, ei) := s_flag l i in let '(kj, _, ej) := s_flag l j in
      firstn i l ++ (false, orb di kj, orb ei ej) :: skipn (S i) l
  | _ => l
  end.
Definition s_plains {T} (ops : list (vop T)) : list s_flag3 := fold_left s_plain_step ops [].
