(* NamelistSpec.v - what a configuration file of ins2d means. *)
From Coq Require Import List Ascii Arith.
From Verif Require Import Base CsvModel.
Import ListNotations.

Definition blanks (s : list ascii) : Prop := Forall (fun c => c = " "%char) s.
(* a word of a setting: no '=', no newline, no NUL, and it neither starts nor ends with a blank *)
Definition word (s : list ascii) : Prop :=
  ~ In "="%char s /\ ~ In NL s /\ ~ In "000"%char s /\ (forall c r, s = c :: r -> c <> " "%char) /\ (forall c r, s = r ++ [c] -> c <> " "%char).

(* A line that says nothing (empty, or starting with #), or that sets k to v, with blanks around the two. *)
Inductive line_says : option (list ascii * list ascii) -> list ascii -> Prop :=
  | says_empty : line_says None []
  | says_comment s : ~ In NL s -> line_says None ("#"%char :: s)
  | says_setting b1 k b2 b3 v b4 : blanks b1 -> blanks b2 -> blanks b3 -> blanks b4 -> word k -> word v -> b3 ++ v ++ b4 <> [] ->
      (forall r, b1 ++ k <> "#"%char :: r) -> line_says (Some (k, v)) (b1 ++ k ++ b2 ++ "="%char :: b3 ++ v ++ b4).

(* the text made of these lines; the last newline may be missing *)
Inductive text_of : list (list ascii) -> list ascii -> Prop :=
  | text_nil : text_of [] []
  | text_line l ls t : ~ In NL l -> text_of ls t -> text_of (l :: ls) (l ++ NL :: t)
  | text_last l : ~ In NL l -> l <> [] -> text_of [l] l.

(* equal but for the case of letters *)
Definition same_letter (a b : ascii) : Prop :=
  a = b \/ exists n, n < 26 /\ (a = ascii_of_nat (65 + n) /\ b = ascii_of_nat (97 + n) \/ a = ascii_of_nat (97 + n) /\ b = ascii_of_nat (65 + n)).
Definition same_word (a b : list ascii) : Prop := Forall2 same_letter a b.

(* the first line that sets K, if any, sets it to v *)
Definition first_value (K : list ascii) (says : list (option (list ascii * list ascii))) (v : list ascii) : Prop :=
  exists before k after, says = before ++ Some (k, v) :: after /\ same_word k K /\ forall k' v', In (Some (k', v')) before -> ~ same_word k' K.
Definition never_set (K : list ascii) (says : list (option (list ascii * list ascii))) : Prop :=
  forall k v, In (Some (k, v)) says -> ~ same_word k K.
(* no small letters *)
Definition capital (K : list ascii) : Prop := forall n, n < 26 -> ~ In (ascii_of_nat (97 + n)) K.

(* number of fields of a line: one more than the number of '=', but nothing after the last '=' is no field *)
Definition fields (line : list ascii) (n : nat) : Prop :=
  (exists r, line = r ++ ["="%char] /\ n = count_occ ascii_dec line "="%char) \/
  ((forall r, line <> r ++ ["="%char]) /\ n = S (count_occ ascii_dec line "="%char)).
(* a line that is skipped *)
Definition ignored (l : list ascii) : Prop := l = [] \/ exists r, l = "#"%char :: r.

(* the word w that the file gives for the key K is converted to a *)
Definition given {A} (f : list ascii -> option A) (says : list (option (list ascii * list ascii))) (K : list ascii) (a : A) : Prop :=
  exists w, first_value K says w /\ f w = Some a.
