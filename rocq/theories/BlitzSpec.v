(* BlitzSpec.v - specifications for the array helpers. *)
From Coq Require Import ZArith List Lia Bool Permutation Sorted.
From Verif Require Import Base Loops.
Import ListNotations.

(* Where entry (i,j) of a rows x cols matrix lives in the flat array. *)
Definition flat_index (byRows : bool) (rows cols i j : nat) : nat :=
  if byRows then i * cols + j else i + j * rows.

(* Textbook Kronecker product, entry (r,c): X(r/Br, c/Bc) * Y(r mod Br, c mod Bc). *)
Definition kronecker {T} (mul : T -> T -> T) (X Y : mat T) : mat T :=
  mkmat (mrows X * mrows Y) (mcols X * mcols Y)
    (fun r c => mul (ment X (r / mrows Y) (c / mcols Y))
                    (ment Y (r mod mrows Y) (c mod mcols Y))).
Definition mtranspose {T} (X : mat T) : mat T :=
  mkmat (mcols X) (mrows X) (fun i j => ment X j i).

(* The C++ "strict weak ordering" requirement on a comparator. *)
Definition incomparable {A} (lt : A -> A -> bool) x y := lt x y = false /\ lt y x = false.
Record strict_weak {A} (lt : A -> A -> bool) : Prop := {
  sw_irrefl : forall x, lt x x = false;
  sw_trans : forall x y z, lt x y = true -> lt y z = true -> lt x z = true;
  sw_incomp : forall x y z, incomparable lt x y -> incomparable lt y z -> incomparable lt x z }.

(* What the C++ standard promises of std::sort: for a strict weak ordering the result is a
   permutation in which no element is smaller than an earlier one. Not stable. *)
Definition is_sort (sort : (nat -> nat -> bool) -> list nat -> list nat) : Prop :=
  forall comp l, strict_weak comp ->
    Permutation l (sort comp l) /\ StronglySorted (fun a b => comp b a = false) (sort comp l).

(* Rows a and b hold the same values (neither < nor > in any column). *)
Definition same_row {T} (ltb : T -> T -> bool) (A : nat -> nat -> T) (cols a b : nat) : Prop :=
  forall j, j < cols -> incomparable ltb (A a j) (A b j).

(* gather/scatter are a labelling of the rows by representatives:
   scatter has one entry per row, each a valid position of gather; gather holds valid, pairwise
   different row indices, each labelled with its own position. *)
Definition labelling (rows : nat) (gather scatter : list nat) : Prop :=
  length scatter = rows /\
  (forall r, r < rows -> exists g, nth_error scatter r = Some g /\ g < length gather) /\
  (forall g r, nth_error gather g = Some r -> r < rows /\ nth_error scatter r = Some g) /\
  NoDup gather.

(* row r is represented by row q *)
Definition represents (gather scatter : list nat) (q r : nat) : Prop :=
  exists g, nth_error scatter r = Some g /\ nth_error gather g = Some q.

(* M is the largest magnitude in column j *)
Definition is_max_abs {T} (ltb : T -> T -> bool) (zero : T) (abs : T -> T)
  (A : nat -> nat -> T) (rows j : nat) (M : T) : Prop :=
  (forall i, i < rows -> ltb M (abs (A i j)) = false) /\
  (M = zero \/ exists i, i < rows /\ M = abs (A i j)).

(* every column of the two rows agrees up to tol times the largest magnitude in the column *)
Definition within_tol {T} (ltb : T -> T -> bool) (zero : T) (sub mul : T -> T -> T) (abs : T -> T)
  (A : nat -> nat -> T) (rows cols : nat) (tol : T) (a b : nat) : Prop :=
  forall j, j < cols -> exists M, is_max_abs ltb zero abs A rows j M /\
    ltb (mul M tol) (abs (sub (A a j) (A b j))) = false.

(* some column of the two rows differs by more than that *)
Definition beyond_tol {T} (ltb : T -> T -> bool) (zero : T) (sub mul : T -> T -> T) (abs : T -> T)
  (A : nat -> nat -> T) (rows cols : nat) (tol : T) (a b : nat) : Prop :=
  exists j M, j < cols /\ is_max_abs ltb zero abs A rows j M /\
    ltb (mul M tol) (abs (sub (A a j) (A b j))) = true.

(* connected through a chain of neighbours *)
Inductive chain (close : nat -> nat -> Prop) : nat -> nat -> Prop :=
| chain_refl x : chain close x x
| chain_step x y w : chain close x y -> close y w -> chain close x w.
