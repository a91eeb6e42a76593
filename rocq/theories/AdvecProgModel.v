(* AdvecProgModel.v - the program src/advec1d/main.cpp from the initial profile to the printed error, around the loop of AdvecRunModel.
   fexp is the exponential of the C library. The fields written on the way are in the state of the loop (file names: C52). *)
From Coq Require Import ZArith List Bool Arith.
From Verif Require Import Base Loops Num Nodes1DModel RKModel Line1DModel AdvecRunModel BurgersRunModel.
Import ListNotations.
Local Open Scope nat_scope.

Section AdvecProg.
Context {T : Type} (A : arith T).
Variable junk : nat -> nat -> T.
Variable junkv : nat -> T.
Variables (fexp : T -> T) (lowest : T).

(* src/advec1d/main.cpp:76: exp(-10*(x*x)) *)
Definition advec_profile (x : mat T) : mat T := Line1DModel.mmap (fun v => fexp (fmul A (fopp A (fofn A 10)) (fmul A v v))) x.
(* src/advec1d/main.cpp:113, 116: exp(-10*((x-finalShift)*(x-finalShift))), finalShift = c*t *)
Definition advec_final (x : mat T) (c t : T) : mat T :=
  let finalShift := fmul A c t in
  Line1DModel.mmap (fun v => fexp (fmul A (fopp A (fofn A 10)) (fmul A (fsub A v finalShift) (fsub A v finalShift)))) x.

(* src/advec1d/main.cpp:117-118: u -= ufinal; err = normMax(u). The model does it on a copy of u. *)
Definition advec_report (Np K : nat) (x : mat T) (c t : T) (u : list T) : T :=
  max_abs A lowest (Line1DModel.mzip (fsub A) (as_field A Np K u) (advec_final x c t)).

(* src/advec1d/main.cpp:62-118 on the tables of the nodes object. The check u_max > 1e8 || isnan(u_max) is the one of
   src/burgers1d/main.cpp, word for word. The result is the state at the end of the loop and err. *)
Definition advec_prog (fuel : nat) (n : nodes1d) (rx Fscale : mat T) (Np K : nat) (huge CFL c finalTime : T) : outcome (sim T * T) :=
  bind (advec_run A junk junkv fuel n rx Fscale Np K (burgers_unstable A lowest huge Np K) CFL c finalTime (advec_profile (n_x n)))
  (fun s => Ok (s, advec_report Np K (n_x n) c (s_t s) (s_u s))).
End AdvecProg.
