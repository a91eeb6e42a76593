(* Poisson1DRunSpec.v - the vocabulary of the theorems about the program poisson1d. A field is one polynomial U k per
   element on [-1,1], K elements of width w. *)
From Coq Require Import List Arith Reals.
From Verif Require Import Base Loops JacobiSpec Line1DSpec Poisson1DSpec.
Import ListNotations.
Local Open Scope R_scope.

(* U has the slopes D, values and slopes agree where two elements meet, and U vanishes at both ends *)
Definition smooth_and_pinned (K : nat) (U : nat -> list R) (D : nat -> R -> R) : Prop :=
  slopes U D /\ peval (U 0%nat) (-1) = 0 /\ peval (U (K - 1)%nat) 1 = 0 /\
  forall k, (S k < K)%nat -> peval (U k) 1 = peval (U (S k)) (-1) /\ D k 1 = D (S k) (-1).
(* F is the second derivative in the interval of the field with slopes D on [-1,1] *)
Definition second_derivative (w : R) (D : nat -> R -> R) (F : nat -> list R) : Prop :=
  forall k x, derivable_pt_lim (D k) x ((w / 2) ^ 2 * peval (F k) x).
(* the vector b tests the field F: paired with the nodal values of any V it gives the integral of F V over all elements *)
Definition tests (n K : nat) (w : R) (r : list R) (F : nat -> list R) (b : list R) : Prop :=
  length b = (n * K)%nat /\ forall v V, holds n K r v V ->
  exists s, (forall k, (k < K)%nat -> integral_is (fun x => w / 2 * (peval (F k) x * peval (V k) x)) (-1) 1 (s k)) /\ dot (n * K) v b = sumn K s.
(* the square root of the sum of the squares of the first m entries of b - y *)
Definition distance (m : nat) (b y : list R) : R := sqrt (sumn m (fun g => (nth g b 0 - nth g y 0) ^ 2)).
