(* CurvedRunSpec.v - what is said about a run of sw2d_curved.py. *)
From Coq Require Import ZArith List Bool Reals.
From Verif Require Import Base Loops JacobiSpec Line1DModel.
Import ListNotations.
Local Open Scope R_scope.

(* d is the distance of the node (i,k) from the nearest of the nodes listed, which are counted column after column *)
Definition nearest (Np : nat) (x y : mat R) (wall : list nat) (i k : nat) (d : R) : Prop :=
  let far w := sqrt ((ment x i k - ment x (w mod Np) (w / Np)) ^ 2 + (ment y i k - ment y (w mod Np) (w / Np)) ^ 2) in
  (exists w, In w wall /\ d = far w) /\ forall w, In w wall -> d <= far w.
(* the steps of n that are written: every fiftieth, the first, and the one whose number was foreseen, if it is reached *)
Definition foreseen (n ns c : Z) : Prop := c = 0%Z \/ (0 < c <= n /\ (Z.divide 50 c \/ c = ns))%Z.
(* the mean of a matrix *)
Definition mean_of (m : mat R) : R := sumn (mcols m) (fun k => sumn (mrows m) (fun i => ment m i k)) / INR (mrows m * mcols m).
