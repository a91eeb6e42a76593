(* SwScriptSpec.v - what is said about a run of sw2d.py. *)
From Coq Require Import ZArith List Bool Reals.
From Verif Require Import Base Loops Line1DModel CurvedSwModel.
Import ListNotations.
Local Open Scope R_scope.

(* a state on the mesh with water at every node *)
Definition has_water (Np K : nat) (q : four (mat R)) : Prop :=
  four_conform q Np K = true /\ forall i k, (i < Np)%nat -> (k < K)%nat -> ment (q_h q) i k <> 0.
(* ceil rounds up to the next integer *)
Definition is_ceiling (ceil : R -> Z) : Prop := forall x, IZR (ceil x) - 1 < x <= IZR (ceil x).
(* the force of the rotating frame on the discharge, in the equation c *)
Definition turning (f : R) (c : nat) (hu hv : R) : R := match c with 1%nat => f * hv | 2%nat => - f * hu | _ => 0 end.
(* the steps of n that are written when every interval-th is, and the first and the last *)
Definition due (n interval c : Z) : Prop := c = 0%Z \/ (0 < c <= n /\ (Z.divide interval c \/ c = n))%Z.
