(* SwSimpleRunModel.v - the program src/sw2d-simple/main.cpp from the node tables to the end of its time loop. Reading the mesh,
   building the nodes and the filter (49-57) are modelled elsewhere; g, the CFL number and the final time (39-45) are arguments.
   Printing and the file format are left out: the elevations handed to the outputter are returned. *)
From Coq Require Import ZArith List Bool Arith.
From Verif Require Import Base Loops Num BlitzModel Maps2DModel Nodes1DModel TriModel RKModel Line1DModel SwModel SwStepModel.
Import ListNotations.
Local Open Scope nat_scope.

Section SwSimpleRun.
Context {T : Type} (A : arith T).
Variable fexp : T -> T.                                            (* std::exp *)
Variables (junk : nat -> nat -> T) (junkv : nat -> T).             (* uninitialised storage *)
Variable lowest : T.                                               (* where a max reduction starts *)
Local Notation "# n" := (fofn A n) (at level 1, format "# n").

(* H = 10.0 + 0*jj: 83 *)
Definition flat_bed (Np K : nat) : mat T := mkmat Np K (fun _ j => fadd A #10 (fmul A #0 #j)).
(* eta = exp(-10*(x*x) -10*(y*y)): 85 *)
Definition hump (x y : mat T) : mat T :=
  mzip (fun x y => fexp (fsub A (fmul A (fopp A #10) (fmul A x x)) (fmul A #10 (fmul A y y)))) x y.
(* u, v, h, hu and hv: 87-91 *)
Definition hump_start (x y : mat T) (Np K : nat) : state (T := T) :=
  let zero := mzero A Np K in let h := mzip (fadd A) (flat_bed Np K) (hump x y) in
  (h, mzip (fmul A) h zero, mzip (fmul A) h zero).
(* 83-170. The first time step is that of the velocities zero (95-110). *)
Definition simple_program (fuel : nat) (d : dg2d (T := T)) (F x y : mat T) (N Np K : nat) (g CFL huge finalTime : T) : outcome (swsim T) :=
  let q := hump_start x y Np K in let zero := mzero A Np K in
  bind (simple_dt A junkv lowest d N 3 (S N) Np K g CFL (fst (fst q)) zero zero) (fun dt =>
  simple_loop A junkv lowest fuel d N 3 (S N) Np K g CFL huge finalTime (flat_bed Np K) F (sw_simple_rhs A junk junkv lowest d 3 (S N) Np K g)
    (SwSim #0 dt 0 q [])).
End SwSimpleRun.
