(* QuadRunSpec.v - what the states beyond the face nodes of a mesh of quadrilaterals are. *)
From Coq Require Import ZArith List.
From Verif Require Import Base Loops TriSpec TriGeoSpec SwSpec InsSpec.
From Coq Require Import Reals.
Import ListNotations.
Local Open Scope R_scope.

(* face node t lies on side (t / (N+1)) mod 4 of element t / (4 (N+1)); the tag of that side *)
Definition side_tag (N : nat) (bcType : list Z) (t : nat) : Z := nth (t / S N) bcType 0%Z.
(* the state beyond face node t with outward normal n: at walls the depth the map vmapP leads to, with the discharge of this
   side mirrored; elsewhere the state vmapP leads to *)
Definition beyond_wall (N Np : nat) (bcType : list Z) (vmapM vmapP : list nat) (q : field) (n : nat -> point) (t : nat) : cell :=
  let own := state_at Np q vmapM t in let far := state_at Np q vmapP t in
  if Z.eqb (side_tag N bcType t) 3 then (part 0 far, part 1 (mirror (n t) own), part 2 (mirror (n t) own)) else far.
(* the depth is not zero at any node *)
Definition wet (Np K : nat) (q : field) : Prop := forall i k, (i < Np)%nat -> (k < K)%nat -> ment (fieldc 0 q) i k <> 0.
(* every node carries depth c and no discharge *)
Definition at_rest (Np K : nat) (c : R) (q : field) : Prop := forall i k, (i < Np)%nat -> (k < K)%nat -> at_node q i k = (c, 0, 0).
