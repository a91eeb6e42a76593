(* Nodes1DSpec.v - what the one-dimensional tables are expected to contain. Faces are numbered 2k (left end
   of element k) and 2k+1 (right end). *)
From Coq Require Import ZArith List Bool Reals.
From Verif Require Import Base Loops JacobiSpec DenseSpec.
Import ListNotations.
Local Open Scope nat_scope.

(* The face that touches face g among K elements in a row: the right end of an element meets the left end of
   the next; the two domain ends meet nothing and stand for themselves. *)
Definition touching (K g h : nat) : Prop :=
  (exists k, S k < K /\ ((g = 2 * k + 1 /\ h = 2 * S k) \/ (g = 2 * S k /\ h = 2 * k + 1))) \/
  (g = h /\ (g = 0 \/ g = 2 * K - 1)).

(* The node at face g when every element has Np nodes, numbered element after element from left to right. *)
Definition end_node (Np k f : nat) : nat := if f =? 0 then Np * k else Np * k + (Np - 1).

(* A dense solver: it throws or returns X with A X = B (C61_direct_solve shows the wrapper is one). *)
Definition solver_ok (solve : mat R -> mat R -> mat R -> outcome (mat R)) : Prop :=
  forall n m A B X, shape A n n -> shape B n m -> shape X n m ->
    solve A B X = Throw \/ exists Y, solve A B X = Ok Y /\ shape Y n m /\ product_is n A Y B.
(* A matrix inverter (C61_inverse). *)
Definition inverter_ok (inverse : mat R -> mat R -> outcome (mat R)) : Prop :=
  forall n A X, shape A n n -> shape X n n ->
    inverse A X = Throw \/
    exists Y, inverse A X = Ok Y /\ shape Y n n /\
    forall i j, (i < n)%nat -> (j < n)%nat ->
      sumn n (fun k => ment A i k * ment Y k j)%R = (if Nat.eqb i j then 1 else 0)%R /\
      sumn n (fun k => ment Y i k * ment A k j)%R = (if Nat.eqb i j then 1 else 0)%R.

(* D applied to the nodal values of any polynomial with n coefficients gives the nodal values of its derivative. *)
Definition differentiates (n : nat) (r : list R) (D : mat R) : Prop :=
  forall cs i v, (length cs <= n)%nat -> (i < n)%nat -> derivable_pt_lim (peval cs) (nth i r 0%R) v ->
    sumn n (fun m => ment D i m * peval cs (nth m r 0%R))%R = v.
