(* SwSetupSpec.v - what the set-up of src/sw2d should do: the depth a file prescribes, which sides are open, the strength
   of a sponge layer. *)
From Coq Require Import ZArith List Bool Ascii Reals.
From Verif Require Import Base Loops CsvModel CsvSpec JacobiSpec TriSpec TriGeoSpec TriDGSpec SwSpec.
Import ListNotations.
Local Open Scope R_scope.

(* The text holds one number a line, vs, blank lines aside; tabs and blanks around the numbers are ignored. *)
Definition column {V} (conv : kind V) (t : str) (vs : list V) : Prop :=
  holds conv t 0 ["009"; " "]%char (length vs) 1 vs.
(* the number of lines of a text that are not blank *)
Definition entries (t : str) (n : nat) : Prop := exists ls rows, lines_of t ls /\ rows_of ["009"; " "]%char ls rows /\ n = length rows.

(* both ends of side f of element k belong to the set of vertices opn *)
Definition open_side (opn : nat -> bool) (EToV : list nat) (k f : nat) : bool :=
  opn (nth (3 * k + f) EToV 0%nat) && opn (nth (3 * k + (f + 1) mod 3) EToV 0%nat).

Definition distance (p q : point) : R := sqrt ((fst p - fst q) ^ 2 + (snd p - snd q) ^ 2).
(* p is a node of a side with tag t *)
Definition on_tagged (t : Z) (Np K : nat) (Vert : list R) (EToV : list nat) (x y : mat R) (bcType : list Z) (p : point) : Prop :=
  exists k f i s, (k < K)%nat /\ (f < 3)%nat /\ (i < Np)%nat /\ tag_of bcType k f = t /\
    p = node_at x y i k /\ p = side_point (from_ Vert EToV k f) (to_ Vert EToV k f) s.
(* c is the coefficient at p of a sponge that falls off linearly from strength at the points opn to nothing at distance
   rad; further away the coefficient is old *)
Definition sponge_value (opn : point -> Prop) (strength rad old : R) (p : point) (c : R) : Prop :=
  (exists q, opn q /\ distance p q < rad /\ (forall q', opn q' -> distance p q <= distance p q') /\ c = strength * (1 - distance p q / rad)) \/
  ((forall q, opn q -> rad <= distance p q) /\ c = old).
