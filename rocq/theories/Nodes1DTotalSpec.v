(* Nodes1DTotalSpec.v - dense solvers that succeed on every non-singular system. *)
From Coq Require Import List Reals.
From Verif Require Import Base Loops JacobiSpec DenseSpec.
Local Open Scope R_scope.

(* B is a two-sided inverse of the n x n matrix A *)
Definition inverse_of (n : nat) (A : mat R) (B : nat -> nat -> R) : Prop :=
  forall i j, (i < n)%nat -> (j < n)%nat ->
    sumn n (fun l => ment A i l * B l j) = (if Nat.eqb i j then 1 else 0) /\
    sumn n (fun l => B i l * ment A l j) = (if Nat.eqb i j then 1 else 0).
(* the solver does not report failure on an invertible n x n matrix *)
Definition solves_regular (n : nat) (solve : mat R -> mat R -> mat R -> outcome (mat R)) : Prop :=
  forall m A B X, shape A n n -> shape B n m -> shape X n m -> (exists C, inverse_of n A C) -> solve A B X <> Throw.
Definition inverts_regular (n : nat) (inverse : mat R -> mat R -> outcome (mat R)) : Prop :=
  forall A X, shape A n n -> shape X n n -> (exists C, inverse_of n A C) -> inverse A X <> Throw.
