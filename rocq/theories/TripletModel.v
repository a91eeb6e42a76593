(* TripletModel.v - SparseTriplet (include/SparseTriplet.hpp, src/SparseTriplet.cpp). *)
From Coq Require Import ZArith List Bool.
From Verif Require Import Base.
Import ListNotations.
Local Open Scope Z_scope.

Section Triplet.
Variable T : Type.        (* real_type; values are only stored and copied *)
Variable zeroT : T.       (* real_type(0) *)

(* include/SparseTriplet.hpp:255-261, the data members. *)
Record triplet := mk {
  rows_ : Z; cols_ : Z; nnz_ : Z; nzmax_ : Z;
  row_ : list Z; col_ : list Z; elems_ : list T }.

(* include/SparseTriplet.hpp:35-45, SparseTriplet(rows, cols, nzmax).
   A negative nzmax makes std::vector's constructor throw length_error. *)
Definition ctor (rows cols nzmax : Z) : outcome triplet :=
  if nzmax <? 0 then Throw
  else if (rows =? 0) || (cols =? 0)
  then Ok (mk 0 0 0 0 [] [] [])
  else Ok (mk rows cols 0 nzmax
              (repeat 0 (Z.to_nat nzmax)) (repeat 0 (Z.to_nat nzmax))
              (repeat zeroT (Z.to_nat nzmax))).

(* include/SparseTriplet.hpp:58-63, constructor from index and value arrays of nnz elements
   (the pointers rowPtr, colPtr, elemsPtr are lists here). *)
Definition ctor_ptrs (rows cols : Z) (r c : list Z) (v : list T) : triplet :=
  mk rows cols (Z.of_nat (length r)) (Z.of_nat (length r)) r c v.

Definition maximum (l : list Z) : option Z :=
  match l with [] => None | h :: t => Some (fold_left Z.max t h) end.

(* include/SparseTriplet.hpp:75-80: dimensions from std::max_element; on an empty range
   max_element returns the end pointer and dereferencing it is undefined. *)
Definition ctor_infer (r c : list Z) (v : list T) : outcome triplet :=
  match maximum r, maximum c with
  | Some mr, Some mc => Ok (ctor_ptrs (mr + 1) (mc + 1) r c v)
  | _, _ => UB
  end.

(* src/SparseTriplet.cpp:27-32. 1.5*nzmax_ is exact in double for every int, so the comparison
   1.5*nzmax_ > INT_MAX is 3*nzmax_ > 2*INT_MAX and the cast truncates 3*nzmax_/2. *)
Definition newSize (s : triplet) : outcome Z :=
  if nzmax_ s <? 2 then Ok 2
  else if 2 * INT_MAX <? 3 * nzmax_ s then Throw
  else Ok (3 * nzmax_ s / 2).

(* src/SparseTriplet.cpp:34-41. Allocation failure (bad_alloc) is not modelled. *)
Definition grow (s : triplet) (nz : Z) : triplet :=
  if nz <=? nzmax_ s then s
  else mk (rows_ s) (cols_ s) (nnz_ s) nz
          (resize 0 (row_ s) nz) (resize 0 (col_ s) nz) (resize zeroT (elems_ s) nz).

(* A method call on an object: the object afterwards and how the call ended. The object is
   reported also when the call throws, so that exception safety can be stated. *)
Inductive ended := Done | Threw | Undef.

(* include/SparseTriplet.hpp:155-161 *)
Definition insert (s : triplet) (r c : Z) (v : T) : triplet * ended :=
  let write (s : triplet) : triplet * ended :=
    match set (row_ s) (nnz_ s) r, set (col_ s) (nnz_ s) c, set (elems_ s) (nnz_ s) v with
    | Ok r', Ok c', Ok v' => (mk (rows_ s) (cols_ s) (nnz_ s + 1) (nzmax_ s) r' c' v', Done)
    | _, _, _ => (s, Undef)
    end in
  if nzmax_ s <=? nnz_ s
  then match newSize s with
       | Ok n => write (grow s n)
       | _ => (s, Threw)
       end
  else write s.

(* include/SparseTriplet.hpp:169-171 *)
Definition expand (s : triplet) (n : Z) : triplet * ended := (grow s n, Done).

(* include/SparseTriplet.hpp:177-182 *)
Definition clear (s : triplet) : triplet * ended :=
  (mk (rows_ s) (cols_ s) 0 (nzmax_ s)
      (map (fun _ => 0) (row_ s)) (map (fun _ => 0) (col_ s)) (map (fun _ => zeroT) (elems_ s)),
   Done).

(* include/SparseTriplet.hpp:195-225, the const accessors. *)
Definition row (s : triplet) (k : Z) : outcome Z := get (row_ s) k.
Definition col (s : triplet) (k : Z) : outcome Z := get (col_ s) k.
Definition elem (s : triplet) (k : Z) : outcome T := get (elems_ s) k.

(* include/SparseTriplet.hpp:189-191, 203-205, 217-219, an assignment through the reference
   returned by the non-const accessors. *)
Definition setRow (s : triplet) (k r : Z) : triplet * ended :=
  match set (row_ s) k r with
  | Ok a => (mk (rows_ s) (cols_ s) (nnz_ s) (nzmax_ s) a (col_ s) (elems_ s), Done)
  | _ => (s, Undef) end.
Definition setCol (s : triplet) (k c : Z) : triplet * ended :=
  match set (col_ s) k c with
  | Ok a => (mk (rows_ s) (cols_ s) (nnz_ s) (nzmax_ s) (row_ s) a (elems_ s), Done)
  | _ => (s, Undef) end.
Definition setElem (s : triplet) (k : Z) (v : T) : triplet * ended :=
  match set (elems_ s) k v with
  | Ok a => (mk (rows_ s) (cols_ s) (nnz_ s) (nzmax_ s) (row_ s) (col_ s) a, Done)
  | _ => (s, Undef) end.

(* src/SparseTriplet.cpp:55-64 *)
Definition swap (a b : triplet) : triplet * triplet :=
  (mk (rows_ b) (cols_ b) (nnz_ b) (nzmax_ b) (row_ b) (col_ b) (elems_ b),
   mk (rows_ a) (cols_ a) (nnz_ a) (nzmax_ a) (row_ a) (col_ a) (elems_ a)).

(* A client: any sequence of modifying calls. An exception is caught by the client, which
   carries on with the object as the call left it. *)
Inductive op := Insert (r c : Z) (v : T) | Expand (n : Z) | Clear
  | SetRow (k r : Z) | SetCol (k c : Z) | SetElem (k : Z) (v : T).

Definition step (s : triplet) (o : op) : triplet * ended :=
  match o with
  | Insert r c v => insert s r c v
  | Expand n => expand s n
  | Clear => clear s
  | SetRow k r => setRow s k r
  | SetCol k c => setCol s k c
  | SetElem k v => setElem s k v
  end.

(* Runs a history, recording how each call ended. *)
Fixpoint run (s : triplet) (os : list op) : triplet * list ended :=
  match os with
  | [] => (s, [])
  | o :: os' =>
      let (s1, e) := step s o in
      let (s2, es) := run s1 os' in
      (s2, e :: es)
  end.

(* Number of stored elements a call may have to move because an array is reallocated:
   vector::resize to a larger size moves at most the old nzmax_ elements. *)
Definition moved (s : triplet) (o : op) : Z :=
  if nzmax_ s <? nzmax_ (fst (step s o)) then nzmax_ s else 0.

Fixpoint total_moved (s : triplet) (os : list op) : Z :=
  match os with
  | [] => 0
  | o :: os' => moved s o + total_moved (fst (step s o)) os'
  end.

(* include/BlitzHelpers.hpp:194-204 countNonzeros; the matrix is given by its rows,
   `big x` stands for abs(x) > dropTol. *)
Definition countNonzeros (big : T -> bool) (m : list (list T)) : outcome Z :=
  let nnz := fold_left (fun n x => if big x then n + 1 else n) (concat m) 0 in
  if INT_MAX <? nnz then Throw else Ok nnz.

(* src/SparseTriplet.cpp:43-53: the blitz iterator visits a row-major matrix row by row and
   position() is the (row, column) pair of the current element. *)
Fixpoint scan_row (big : T -> bool) (i j : Z) (r : list T) (s : triplet) : outcome triplet :=
  match r with
  | [] => Ok s
  | x :: r' =>
      if big x then
        match set (row_ s) (nnz_ s) i, set (col_ s) (nnz_ s) j, set (elems_ s) (nnz_ s) x with
        | Ok r1, Ok c1, Ok v1 =>
            scan_row big i (j + 1) r' (mk (rows_ s) (cols_ s) (nnz_ s + 1) (nzmax_ s) r1 c1 v1)
        | _, _, _ => UB
        end
      else scan_row big i (j + 1) r' s
  end.

Fixpoint scan (big : T -> bool) (i : Z) (m : list (list T)) (s : triplet) : outcome triplet :=
  match m with
  | [] => Ok s
  | r :: m' => bind (scan_row big i 0 r s) (scan big (i + 1) m')
  end.

(* A blitz matrix with `cols` columns is the list of its rows; all rows have that length. *)
Definition ctor_dense (big : T -> bool) (ncols : Z) (m : list (list T)) : outcome triplet :=
  bind (countNonzeros big m) (fun nz =>
  bind (ctor (Z.of_nat (length m)) ncols nz) (scan big 0 m)).

End Triplet.

Arguments mk {T}.
Arguments rows_ {T}. Arguments cols_ {T}. Arguments nnz_ {T}. Arguments nzmax_ {T}.
Arguments row_ {T}. Arguments col_ {T}. Arguments elems_ {T}.
Arguments Insert {T}. Arguments Expand {T}. Arguments Clear {T}.
Arguments SetRow {T}. Arguments SetCol {T}. Arguments SetElem {T}.
Arguments row {T}. Arguments col {T}. Arguments elem {T}. Arguments swap {T}.
Arguments newSize {T}.
Arguments ctor_ptrs {T}. Arguments ctor_infer {T}. Arguments countNonzeros {T}.
