(* BuildMeshSpec.v - the arrays a Python program passes to buildMesh. *)
From Coq Require Import ZArith List Bool.
From Verif Require Import Base Loops NumpyModel NumpySpec.
Import ListNotations.
Local Open Scope nat_scope.

(* numpy.int64, numpy's default integer type: eight bytes, little-endian, two's complement *)
Fixpoint le_bytes (n : nat) (z : Z) : list Z :=
  match n with O => [] | S n' => (z mod 256)%Z :: le_bytes n' (z / 256)%Z end.
Fixpoint le_value (l : list Z) : Z := match l with [] => 0%Z | b :: t => (b + 256 * le_value t)%Z end.
Definition int64 : ctype Z Z :=
  CType 8 (le_bytes 8) (fun b => ((le_value b + 2 ^ 63) mod 2 ^ 64 - 2 ^ 63)%Z) 0%Z.

(* The K x NF table v as a list, row after row. *)
Definition rows_of_table (K NF : nat) (v : nat -> nat -> Z) : list Z :=
  flat_map (fun k => map (v k) (seq 0 NF)) (seq 0 K).
