(** Words of concatenated texts; decimal digits. *)
From Coq Require Import String Ascii NArith ZArith List Lia Bool DecimalString Decimal DecimalN DecimalPos.
From Verif Require Import SpecPrint Print.
Import ListNotations.
Local Open Scope string_scope.

Lemma split_tok : forall w s, s_solid w = true -> s_split (w ++ s) = (w ++ fst (s_split s), snd (s_split s)).
Proof.
  induction w as [|c w IH]; intros s H; cbn.
  - destruct (s_split s); reflexivity.
  - cbn in H. apply andb_prop in H. destruct H as [A B]. rewrite (IH s B). apply negb_true_iff in A. rewrite A. reflexivity.
Qed.
Lemma words_sp : forall c s, s_space c = true -> s_words (String c s) = s_words s.
Proof. intros c s H. unfold s_words. cbn. destruct (s_split s) as [w ws]. rewrite H. reflexivity. Qed.
Lemma app_nil : forall s : string, s ++ "" = s.
Proof. induction s as [|c s IH]; cbn; [reflexivity|]. rewrite IH. reflexivity. Qed.
Lemma words_tok : forall w c s, s_token w -> s_space c = true -> s_words (w ++ String c s) = w :: s_words s.
Proof.
  intros w c s [N S] H. unfold s_words at 1. rewrite (split_tok _ _ S). cbn [s_split].
  change (s_words s) with (let '(w0, ws) := s_split s in match w0 with "" => ws | _ => w0 :: ws end).
  destruct (s_split s) as [w0 ws]. rewrite H. cbn [fst snd]. rewrite app_nil. destruct w; [congruence|reflexivity].
Qed.
Lemma words_end : forall w, s_token w -> s_words w = [w].
Proof.
  intros w [N S]. rewrite <- (app_nil w) at 1. unfold s_words. rewrite (split_tok _ _ S). cbn [s_split fst snd]. rewrite app_nil. destruct w; [congruence|reflexivity].
Qed.
Lemma app_assoc_s : forall a b c : string, (a ++ b) ++ c = a ++ (b ++ c).
Proof. induction a as [|x a IH]; intros; cbn; [reflexivity|]. rewrite IH. reflexivity. Qed.
(** a token glued to another solid text *)
Lemma tok_app : forall a b, s_token a -> s_solid b = true -> s_token (a ++ b).
Proof.
  intros a b [A B] C. split; [destruct a; [congruence|discriminate]|].
  clear A. induction a as [|c a IH]; cbn in *; auto. apply andb_prop in B. destruct B as [D E]. rewrite D. apply IH, E.
Qed.

(** ** digits *)
Lemma read_acc : forall d p, s_read (NilEmpty.string_of_uint d) (Npos p) = Some (Npos (Pos.of_uint_acc d p)).
Proof.
  induction d; intros p; [reflexivity|..]; cbn [NilEmpty.string_of_uint s_read Pos.of_uint_acc];
  match goal with |- context [s_digit ?c] => let v := eval compute in (s_digit c) in change (s_digit c) with v end; cbn [s_read];
  (match goal with |- s_read _ ?n = Some (Npos (Pos.of_uint_acc _ ?q)) => replace n with (Npos q); [apply IHd|] end); lia.
Qed.
Lemma read_uint : forall d, s_read (NilEmpty.string_of_uint d) 0 = Some (N.of_uint d).
Proof.
  unfold N.of_uint. induction d; [reflexivity|..]; cbn [NilEmpty.string_of_uint s_read Pos.of_uint];
  match goal with |- context [s_digit ?c] => let v := eval compute in (s_digit c) in change (s_digit c) with v end; cbn [s_read N.mul N.add]; first [exact IHd|apply read_acc].
Qed.
Lemma to_uint_nonnil : forall n, N.to_uint n <> Nil.
Proof. intros n H. destruct n; cbn in H; [discriminate|]. exact (DecimalPos.Unsigned.to_uint_nonnil _ H). Qed.
Lemma show_u_number : forall n, s_number (show_u n) = Some n.
Proof.
  intros n. unfold s_number, show_u. pose proof (read_uint (N.to_uint n)) as H. rewrite DecimalN.Unsigned.of_to in H.
  pose proof (to_uint_nonnil n) as E. destruct (N.to_uint n); [congruence|..]; exact H.
Qed.
Lemma uint_solid : forall d, s_solid (NilEmpty.string_of_uint d) = true.
Proof. induction d; [reflexivity|..]; cbn [NilEmpty.string_of_uint s_solid]; rewrite IHd; reflexivity. Qed.
Lemma show_u_token : forall n, s_token (show_u n).
Proof.
  intros n. split; [|apply uint_solid]. unfold show_u. pose proof (to_uint_nonnil n) as E. destruct (N.to_uint n); [congruence|..]; discriminate.
Qed.
