(* HeatSpec.v - linear systems, backward Euler steps, and what a direct solver is trusted to do. *)
From Coq Require Import ZArith List Bool Arith.
From Verif Require Import Base Loops Num CscSpec JacobiSpec.
From Coq Require Import Reals.
Import ListNotations.
Local Open Scope R_scope.

(* component i of the product of an n x n matrix with a vector *)
Definition times (n : nat) (a : nat -> nat -> R) (x : nat -> R) (i : nat) : R := sumn n (fun j => a i j * x j).
(* only the zero vector is mapped to zero *)
Definition nonsingular (n : nat) (a : nat -> nat -> R) : Prop :=
  forall x, (forall i, (i < n)%nat -> times n a x i = 0) -> forall i, (i < n)%nat -> x i = 0.
(* the matrix a list of (row, column, value) entries denotes *)
Definition matrix (ts : list (nat * nat * R)) : nat -> nat -> R := value 0 Rplus ts.
(* A direct solver (in exact arithmetic): for every nonsingular matrix it succeeds, and its solve method solves every system. *)
Definition direct (splu : nat -> list (nat * nat * R) -> outcome (list R -> list R)) : Prop :=
  forall n ts, (forall i j x, In (i, j, x) ts -> (i < n)%nat /\ (j < n)%nat) -> nonsingular n (matrix ts) ->
  exists solve, splu n ts = Ok solve /\
  forall b, length b = n -> length (solve b) = n /\
  forall i, (i < n)%nat -> times n (matrix ts) (fun j => nth j (solve b) 0) i = nth i b 0.

(* nodal values of an array with one column per element, in the order of the unknowns *)
Definition nodal_values (m : mat R) (i : nat) : R := ment m (i mod mrows m) (i / mrows m).

(* q is the sequence of backward Euler states from rest for  M dp/dt + kappa L p = kappa b,  with time step dt *)
Definition backward_euler (n : nat) (M L : nat -> nat -> R) (kappa dt : R) (b : nat -> R) (q : nat -> nat -> R) : Prop :=
  (forall i, (i < n)%nat -> q 0%nat i = 0) /\
  forall j i, (i < n)%nat -> times n M (q (S j)) i - times n M (q j) i = dt * (kappa * b i - kappa * times n L (q (S j)) i).

(* the greatest absolute value of n numbers *)
Definition greatest (n : nat) (x : nat -> R) (top : R) : Prop :=
  (exists i, (i < n)%nat /\ Rabs (x i) = top) /\ forall i, (i < n)%nat -> Rabs (x i) <= top.
