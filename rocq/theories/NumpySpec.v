(* NumpySpec.v - what a Python program sees of an array. *)
From Coq Require Import ZArith List Bool.
From Verif Require Import Base Loops NumpyModel.
Import ListNotations.
Local Open Scope nat_scope.

(* A type whose values can be stored in width bytes and read back. *)
Record ctype_ok {B T} (c : ctype B T) : Prop := {
  ct_pos : 0 < width c;
  ct_len : forall v, length (encode c v) = width c;
  ct_dec : forall v, decode c (encode c v) = v }.

(* a[ix] in Python: None is IndexError. The address is data + sum of index times stride. *)
Fixpoint in_shape (shape ix : list nat) : bool :=
  match shape, ix with [], [] => true | n :: s, i :: t => (i <? n) && in_shape s t | _, _ => false end.
Fixpoint address (strides : list Z) (ix : list nat) : Z :=
  match strides, ix with st :: s, i :: t => (Z.of_nat i * st + address s t)%Z | _, _ => 0%Z end.
Definition item {B T} (c : ctype B T) (a : ndarray B) (ix : list nat) : option T :=
  if in_shape (nd_shape a) ix
  then Some (decode c (firstn (width c) (skipn (Z.to_nat (Z.of_nat (nd_data a) + address (nd_strides a) ix)) (nd_bytes a))))
  else None.

(* The array a holds the vector v / the r x s matrix f / the K matrices f of size r x s, the number of
   the matrix being the last index. *)
Definition is_vector {B T} (c : ctype B T) (a : ndarray B) (v : list T) : Prop :=
  nd_shape a = [length v] /\ forall i x, nth_error v i = Some x -> item c a [i] = Some x.
Definition is_matrix {B T} (c : ctype B T) (a : ndarray B) (r s : nat) (f : nat -> nat -> T) : Prop :=
  nd_shape a = [r; s] /\ forall i j, i < r -> j < s -> item c a [i; j] = Some (f i j).
Definition is_tensor {B T} (c : ctype B T) (a : ndarray B) (r s K : nat) (f : nat -> nat -> nat -> T) : Prop :=
  nd_shape a = [r; s; K] /\ forall i j k, i < r -> j < s -> k < K -> item c a [i; j; k] = Some (f k i j).

(* An array as numpy makes it by default: elements of the right type, one after the other in C order, all inside the
   block of memory. *)
Definition c_ordered {B T} (c : ctype B T) (a : ndarray B) : Prop :=
  nd_item a = width c /\ nd_strides a = c_strides (width c) (nd_shape a) /\
  nd_data a + product_of (nd_shape a) * width c <= length (nd_bytes a).

(* a.T for a two-dimensional array: the same memory, shape and strides exchanged *)
Definition transposed {B} (a : ndarray B) : ndarray B :=
  NdArray (nd_bytes a) (nd_data a) (nd_item a) (rev (nd_shape a)) (rev (nd_strides a)).

(* A C-ordered array of two-word items (numpy's default integer type on 64-bit little-endian machines, next to the
   32-bit index type of the code): the low word is the value, the high word is zero for values that fit. *)
Definition wide_array {B T} (c : ctype B T) (zero : T) (r s : nat) (f : nat -> nat -> T) : ndarray B :=
  NdArray (flat_map (fun i => flat_map (fun j => encode c (f i j) ++ encode c zero) (seq 0 s)) (seq 0 r)) 0 (2 * width c)
    [r; s] (c_strides (2 * width c) [r; s]).
