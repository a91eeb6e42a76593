(* GmresPrintSpec.v - lines of text and decimal numbers. is_digit and numeral_value (the number a string of digits stands for) are in
   PathSpec.v. *)
From Coq Require Import ZArith List String Ascii.
From Verif Require Import Base CsvModel PathSpec GmresModel.
Import ListNotations.
Local Open Scope list_scope.

(* the lines ls, each ended by a newline *)
Definition in_lines (ls : list str) : str := flat_map (fun l => l ++ [NL]) ls.
(* s is the number n written in decimal *)
Definition decimal (s : str) (n : nat) : Prop := s <> [] /\ Forall is_digit s /\ numeral_value s = Z.of_nat n.
(* the words w occur in the text s *)
Definition mentions (s : str) (w : string) : Prop := exists before after, s = before ++ list_ascii_of_string w ++ after.
(* what to look for in the text for an outcome of the solver (ConvFlag in include/GMRESSolver.hpp) *)
Definition catchword (f : gflag) : string :=
  match f with
  | F_unconverged => "unconverged" | F_success => "success" | F_diverged => "excessive growth" | F_maxits => "maximum iterations"
  | F_stagnation => "stagnation" | F_breakdown => "singular" | F_true_rnrm => "true residual norm" | F_inf_or_nan => "inf or nan"
  | F_precon_fail => "preconditioner application failed" | F_matvec_fail => "matrix-vector product failed"
  end.
