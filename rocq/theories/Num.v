(* Num.v - the arithmetic the numerical models are written in. A model is a function of an arith record, so
   the same code can be read over the reals (exact arithmetic) or over IEEE doubles.
   Nothing here models a particular function of /repo. *)
From Coq Require Import ZArith List Reals SpecFloat.
Import ListNotations.

Record arith (T : Type) := Arith {
  fadd : T -> T -> T; fsub : T -> T -> T; fmul : T -> T -> T; fdiv : T -> T -> T;
  fopp : T -> T; fsqrt : T -> T; fabs : T -> T;
  fofZ : Z -> T;                                          (* int to double *)
  flt : T -> T -> bool; fle : T -> T -> bool; feq : T -> T -> bool;
  fpow : T -> T -> T;                                     (* std::pow *)
  ftgamma : T -> T }.                                     (* std::tgamma *)
Arguments fadd {T}. Arguments fsub {T}. Arguments fmul {T}. Arguments fdiv {T}. Arguments fopp {T}.
Arguments fsqrt {T}. Arguments fabs {T}. Arguments fofZ {T}. Arguments flt {T}. Arguments fle {T}.
Arguments feq {T}. Arguments fpow {T}. Arguments ftgamma {T}.
Definition fofn {T} (A : arith T) (n : nat) : T := fofZ A (Z.of_nat n).

(* Exact arithmetic. The gamma function is not in the standard library; it is a parameter. *)
Definition Rltb (x y : R) : bool := if Rlt_dec x y then true else false.
Definition Rleb (x y : R) : bool := if Rle_dec x y then true else false.
Definition Reqb (x y : R) : bool := if Req_EM_T x y then true else false.
Definition exact (G : R -> R) : arith R :=
  Arith R Rplus Rminus Rmult Rdiv Ropp sqrt Rabs IZR Rltb Rleb Reqb Rpower G.

(* IEEE doubles, rounding to nearest even; pow and tgamma are parameters. *)
Definition dofZ (z : Z) : spec_float := binary_normalize 53 1024 z 0 false.
Definition dbl_arith (pow : spec_float -> spec_float -> spec_float) (gam : spec_float -> spec_float) : arith spec_float :=
  Arith spec_float (SFadd 53 1024) (SFsub 53 1024) (SFmul 53 1024) (SFdiv 53 1024) SFopp (SFsqrt 53 1024) SFabs
    dofZ SFltb SFleb SFeqb pow gam.
