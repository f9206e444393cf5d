(** Reading a printed text: white space separates words; a decimal number is read digit by digit. *)
From Coq Require Import String Ascii NArith List.
Import ListNotations.
Local Open Scope string_scope.

Definition s_space (c : ascii) : bool := Ascii.eqb c " " || Ascii.eqb c (ascii_of_nat 9) || Ascii.eqb c (ascii_of_nat 10).
(** the beginning of the text up to the first white space, and the words after it *)
Fixpoint s_split (s : string) : string * list string :=
  match s with
  | "" => ("", [])
  | String c r => let '(w, ws) := s_split r in if s_space c then ("", match w with "" => ws | _ => w :: ws end) else (String c w, ws)
  end.
Definition s_words (s : string) : list string := let '(w, ws) := s_split s in match w with "" => ws | _ => w :: ws end.

(** what a component must look like to be told apart from its neighbours: not empty, no white space *)
Fixpoint s_solid (s : string) : bool := match s with "" => true | String c r => (negb (s_space c) && s_solid r)%bool end.
Definition s_token (s : string) : Prop := s <> "" /\ s_solid s = true.

Definition s_digit (c : ascii) : option N :=
  let n := N_of_ascii c in if (N.leb 48 n && N.leb n 57)%bool then Some (n - 48)%N else None.
Fixpoint s_read (s : string) (acc : N) : option N :=
  match s with "" => Some acc | String c r => match s_digit c with Some d => s_read r (10 * acc + d)%N | None => None end end.
(** the value of a word of decimal digits *)
Definition s_number (s : string) : option N := match s with "" => None | _ => s_read s 0 end.
