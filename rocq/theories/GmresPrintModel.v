(* GmresPrintModel.v - what is printed of the result of the linear solver: src/GMRESSolver.cpp:50-73, 91-101, and the report of
   src/poisson2d/main.cpp. A stream is the text written so far and the parts of its format that matter here; integers are printed
   with the defaults (decimal, no padding, no sign). The conversion of a floating point number is a parameter: fmt sci p v. *)
From Coq Require Import ZArith List Bool String Ascii.
From Verif Require Import Base Num CsvModel PathModel GmresModel.
Import ListNotations.
Local Open Scope list_scope.

Definition lit (s : string) : str := list_ascii_of_string s.
Record stream := Stream { written : str; boolalpha : bool; scientific : bool; precision : nat }.

(* ConvFlagToStr: src/GMRESSolver.cpp:50-73 *)
Definition ConvFlagToStr (f : gflag) : str :=
  lit match f with
  | F_success => "success -> convergence critera satisfied"
  | F_unconverged => "unconverged -> neither converged nor diverged"
  | F_diverged => "diverged -> excessive growth in residual norm"
  | F_maxits => "maximum iterations reached"
  | F_true_rnrm => "true residual norm failed convergence test"
  | F_inf_or_nan => "residual norm is either inf or nan"
  | F_precon_fail => "preconditioner application failed"
  | F_matvec_fail => "matrix-vector product failed"
  | F_breakdown => "input matrix or preconditioner are likely singular"
  | F_stagnation => "stagnation"
  end.

(* the text of msg: include/GMRESSolver.hpp:242, 293, 298, 330-332, 378, 391, 444 *)
Definition msg_text (m : gmsg) : str :=
  match m with
  | G_none => []
  | G_init_matvec => lit "matvec failed when computing initial residual"
  | G_inner_precon => lit "preconditioner application in inner loop failed"
  | G_inner_matvec => lit "matvec in inner loop failed"
  | G_singular i => lit "H(" ++ print_int (Z.of_nat i) ++ lit "," ++ print_int (Z.of_nat i) ++ lit ") = 0"
  | G_update_precon => lit "preconditioner application failed when updating solution"
  | G_update_matvec => lit "matvec failed when updating residual"
  | G_test_skipped => lit "matvec failed when computing true residual -> test skipped"
  end.
(* std::string::empty *)
Definition is_empty (s : str) : bool := match s with [] => true | _ => false end.

Section Print.
Context {T : Type}.
Variable fmt : bool -> nat -> T -> str.

Definition put_str (t : str) (s : stream) : stream := Stream (written s ++ t) (boolalpha s) (scientific s) (precision s).
Definition put_int (n : Z) : stream -> stream := put_str (print_int n).
Definition put_bool (b : bool) (s : stream) : stream :=
  put_str (if boolalpha s then lit (if b then "true" else "false") else lit (if b then "1" else "0")) s.
Definition put_real (v : T) (s : stream) : stream := put_str (fmt (scientific s) (precision s) v) s.
Definition set_scientific (s : stream) : stream := Stream (written s) (boolalpha s) true (precision s).
Definition set_precision (p : nat) (s : stream) : stream := Stream (written s) (boolalpha s) (scientific s) p.
Definition endline : stream -> stream := put_str [NL].

(* operator<< for GMRESOut: src/GMRESSolver.cpp:91-101. The info line prints out.msg.empty(), as in the source. *)
Definition print_out (o : @gout T) (s : stream) : stream :=
  let s := endline (put_str (ConvFlagToStr (g_flag o)) (put_str (lit "outcome: ") s)) in
  let s := if negb (is_empty (msg_text (g_msg o))) then endline (put_bool (is_empty (msg_text (g_msg o))) (put_str (lit "info: ") s)) else s in
  let s := endline (put_int (Z.of_nat (g_outer o)) (put_str (lit "outer iter: ") s)) in
  let s := endline (put_int (Z.of_nat (g_inner o)) (put_str (lit "inner iter: ") s)) in
  endline (put_real (g_relres o) (set_precision 2 (set_scientific (put_str (lit "relative residual: ") s)))).

(* src/poisson2d/main.cpp:102-106 *)
Definition poisson2d_report (K : Z) (o : @gout T) (u_max : T) (s : stream) : stream :=
  let s := endline (put_int K (put_str (lit "K: ") s)) in
  let s := endline (print_out o (put_str (lit "result is ") s)) in
  endline (put_real u_max (put_str (lit "normMax u is: ") s)).
End Print.
