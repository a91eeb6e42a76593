(* PoissonQuadSpec.v - what is asked of the matrix inverter when the Poisson operator is built on quadrilaterals. *)
From Coq Require Import List.
From Verif Require Import Base Loops.

(* a call returns an n x n matrix or throws *)
Definition returns_square {T} (n : nat) (inverse : mat T -> mat T -> outcome (mat T)) : Prop :=
  forall M X, mrows M = n -> mcols M = n -> mrows X = n -> mcols X = n ->
    inverse M X = Throw \/ exists Y, inverse M X = Ok Y /\ mrows Y = n /\ mcols Y = n.
(* a matrix all of whose rows are the same is reported as singular *)
Definition rejects_equal_rows {T} (n : nat) (inverse : mat T -> mat T -> outcome (mat T)) : Prop :=
  forall M X, mrows M = n -> mcols M = n -> mrows X = n -> mcols X = n ->
    (forall i i' j, i < n -> i' < n -> j < n -> ment M i j = ment M i' j) -> inverse M X = Throw.
