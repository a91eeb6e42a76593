(* CscSpec.v - what a compressed-column matrix means. *)
From Coq Require Import ZArith List Bool Permutation Sorted.
From Verif Require Import Base Loops TripletModel CscModel.
Import ListNotations.
Local Open Scope nat_scope.

(* A valid matrix: column pointers start at 0, never decrease and stay within the storage, and
   every stored row index is in range. *)
Record valid {T} (a : csc T) : Prop := {
  v_plen : S (n_ a) <= length (p_ a);
  v_p0 : nth_error (p_ a) 0 = Some 0;
  v_mono : forall j u v, j < n_ a -> nth_error (p_ a) j = Some u -> nth_error (p_ a) (S j) = Some v -> u <= v;
  v_last : forall u, nth_error (p_ a) (n_ a) = Some u -> u <= nzmax a;
  v_ilen : length (i_ a) = nzmax a;
  v_xlen : length (x_ a) = nzmax a;
  v_rows : forall u k r, nth_error (p_ a) (n_ a) = Some u -> k < u -> nth_error (i_ a) k = Some r -> r < m_ a }.

(* The stored entries (row, column, value), in the order operator<< prints them: column j owns
   the storage positions colPtrs(j) .. colPtrs(j+1)-1. *)
Definition entries {T} (a : csc T) : list (nat * nat * T) :=
  flat_map (fun j =>
    match nth_error (p_ a) j, nth_error (p_ a) (S j) with
    | Some u, Some v =>
        flat_map (fun k => match nth_error (i_ a) k, nth_error (x_ a) k with
                           | Some r, Some x => [(r, j, x)] | _, _ => [] end) (seq u (v - u))
    | _, _ => []
    end) (seq 0 (n_ a)).

Definition row_of {T} (e : nat * nat * T) : nat := fst (fst e).
Definition col_of {T} (e : nat * nat * T) : nat := snd (fst e).
Definition val_of {T} (e : nat * nat * T) : T := snd e.

Definition in_column {T} (j : nat) (e : nat * nat * T) : bool := col_of e =? j.
Definition at_pos {T} (i j : nat) (e : nat * nat * T) : bool := (row_of e =? i) && (col_of e =? j).

Section Denote.
Context {T : Type} (zero : T) (add mul : T -> T -> T).
Definition sum (l : list T) : T := fold_right add zero l.
(* Entry (i,j) of the matrix a list of entries denotes: the sum of the values stored there. *)
Definition value (es : list (nat * nat * T)) (i j : nat) : T := sum (map val_of (filter (at_pos i j) es)).
(* Entry (i,j) of the product of two matrices with inner dimension n. *)
Definition product (n : nat) (A B : nat -> nat -> T) (i j : nat) : T :=
  sum (map (fun k => mul (A i k) (B k j)) (seq 0 n)).
End Denote.

(* entries of a triplet, with natural-number positions *)
Definition triplet_entries {T} (t : triplet T) : list (nat * nat * T) :=
  let n := Z.to_nat (nnz_ t) in
  map (fun '(i, j, x) => (Z.to_nat i, Z.to_nat j, x))
      (combine (combine (firstn n (row_ t)) (firstn n (col_ t))) (firstn n (elems_ t))).

(* a triplet whose indices are within its declared dimensions *)
Definition triplet_in_range {T} (t : triplet T) : Prop :=
  (0 <= rows_ t /\ 0 <= cols_ t /\ 0 <= nnz_ t)%Z /\
  length (row_ t) = length (col_ t) /\ length (col_ t) = length (elems_ t) /\
  (nnz_ t <= Z.of_nat (length (row_ t)))%Z /\
  (forall k r, k < Z.to_nat (nnz_ t) -> nth_error (row_ t) k = Some r -> (0 <= r < rows_ t)%Z) /\
  (forall k c, k < Z.to_nat (nnz_ t) -> nth_error (col_ t) k = Some c -> (0 <= c < cols_ t)%Z).

Record comm_monoid {T} (zero : T) (add : T -> T -> T) : Prop := {
  cm_assoc : forall a b c, add a (add b c) = add (add a b) c;
  cm_comm : forall a b, add a b = add b a;
  cm_zero : forall a, add zero a = a }.

Record comm_semiring {T} (zero : T) (add mul : T -> T -> T) : Prop := {
  sr_monoid : comm_monoid zero add;
  sr_mcomm : forall a b, mul a b = mul b a;
  sr_dist : forall a b c, mul a (add b c) = add (mul a b) (mul a c);
  sr_mzero : forall a, mul a zero = zero }.

Definition col_row_lt {T} (a b : nat * nat * T) : Prop :=
  col_of a < col_of b \/ (col_of a = col_of b /\ row_of a < row_of b).
Definition col_row_le {T} (a b : nat * nat * T) : Prop :=
  col_of a < col_of b \/ (col_of a = col_of b /\ row_of a <= row_of b).
Definition swap_pos {T} (e : nat * nat * T) : nat * nat * T := (col_of e, row_of e, val_of e).

(* the entries of a dense matrix above the threshold, columns outer *)
Definition dense_list {T} (big : T -> bool) (A : mat T) : list (nat * nat * T) :=
  flat_map (fun j => flat_map (fun i => if big (ment A i j) then [(i, j, ment A i j)] else [])
                      (seq 0 (mrows A))) (seq 0 (mcols A)).

