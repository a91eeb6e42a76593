(* CscModel.v - CSCMat (include/CSCMatrix.hpp, src/CSCMatrix.cpp).

   The CXSparse routines called by CSCMat are third-party and are modelled by their effect on
   the columns of the matrix (order of entries included), not by their internal work arrays.
   They require a valid matrix; on an invalid one the model answers UB. Allocation failure is
   not modelled. *)
From Coq Require Import ZArith List Bool.
From Verif Require Import Base Loops TripletModel.
Import ListNotations.
Local Open Scope nat_scope.

Section Csc.
Variable T : Type.

(* A cs_di in compressed-column form: dimensions, allocated entries, column pointers, row
   indices, values. nz == -1 always, so it is left out. *)
Record csc := mkcsc { m_ : nat; n_ : nat; nzmax : nat; p_ : list nat; i_ : list nat; x_ : list T }.

(* include/CSCMatrix.hpp rows(), cols(), nnz(), empty() *)
Definition rows (a : csc) := m_ a.
Definition cols (a : csc) := n_ a.
Definition nnz (a : csc) := nzmax a.
Definition empty (a : csc) : bool := (m_ a =? 0) || (n_ a =? 0).

(* The conditions under which CXSparse may be called on a matrix. *)
Definition validb (a : csc) : bool :=
  (S (n_ a) <=? length (p_ a)) &&
  (match p_ a with h :: _ => h =? 0 | [] => false end) &&
  forallb (fun j => nth j (p_ a) 0 <=? nth (S j) (p_ a) 0) (seq 0 (n_ a)) &&
  (nth (n_ a) (p_ a) 0 <=? nzmax a) &&
  (length (i_ a) =? nzmax a) && (length (x_ a) =? nzmax a) &&
  forallb (fun r => r <? m_ a) (firstn (nth (n_ a) (p_ a) 0) (i_ a)).

Notation column := (list (nat * T)).

Definition slice {X} (l : list X) (a b : nat) : list X := firstn (b - a) (skipn a l).

(* columns of a valid matrix *)
Definition cols_of (a : csc) : list column :=
  map (fun j => slice (combine (i_ a) (x_ a)) (nth j (p_ a) 0) (nth (S j) (p_ a) 0)) (seq 0 (n_ a)).

Fixpoint ptrs (s : nat) (cs : list column) : list nat :=
  s :: match cs with [] => [] | c :: cs' => ptrs (s + length c) cs' end.

(* a matrix freshly laid out by CXSparse; cs_spalloc/cs_sprealloc allocate at least one entry,
   whose content is uninitialised (jk) when there is none to store *)
Definition of_cols (jk : nat * T) (m : nat) (cs : list column) : csc :=
  let e := concat cs in
  let e' := match e with [] => [jk] | _ => e end in
  mkcsc m (length cs) (length e') (ptrs 0 cs) (map fst e') (map snd e').

(* src/CSCMatrix.cpp:31-40. Arrays are uninitialised: their contents are the parameters jp, ji,
   jx. `rows * cols` is an int product: overflow is undefined. *)
Definition ctor_sizes (jp ji : nat -> nat) (jx : nat -> T) (rows cols nnz : nat) : outcome csc :=
  if (INT_MAX <? Z.of_nat rows * Z.of_nat cols)%Z then UB
  else
    let nz := Nat.max 1 (if rows * cols =? 0 then 0 else nnz) in
    let zero := (rows =? 0) || (cols =? 0) in
    Ok (mkcsc (if zero then 0 else rows) (if zero then 0 else cols) nz
          (map jp (seq 0 (S cols))) (map ji (seq 0 nz)) (map jx (seq 0 nz))).

(* src/CSCMatrix.cpp:42-61. cs_di_entry fails on a negative index and otherwise enlarges the
   dimensions; cs_di_compress distributes the entries to their columns in order. *)
Fixpoint entry_loop (k : nat) (r c : list Z) (v : list T) (m n : Z) (acc : list (Z * Z * T))
  : outcome (Z * Z * list (Z * Z * T)) :=
  match k with
  | O => Ok (m, n, acc)
  | S k' =>
      match r, c, v with
      | i :: r', j :: c', x :: v' =>
          if (i <? 0)%Z || (j <? 0)%Z then Throw
          else entry_loop k' r' c' v' (Z.max m (i + 1)) (Z.max n (j + 1)) (acc ++ [(i, j, x)])
      | _, _, _ => UB      (* triplet.row(k) beyond its storage *)
      end
  end.

Definition compress_col (es : list (Z * Z * T)) (j : nat) : column :=
  map (fun '(i, _, x) => (Z.to_nat i, x)) (filter (fun '(_, c, _) => Z.eqb c (Z.of_nat j)) es).

Definition ctor_triplet (jk : nat * T) (t : triplet T) : outcome csc :=
  bind (entry_loop (Z.to_nat (nnz_ t)) (row_ t) (col_ t) (elems_ t) (rows_ t) (cols_ t) [])
    (fun '(m, n, es) =>
       if (m <? 0)%Z || (n <? 0)%Z then UB
       else Ok (of_cols jk (Z.to_nat m) (map (compress_col es) (seq 0 (Z.to_nat n))))).

(* src/CSCMatrix.cpp:63-85. The dense matrix is (nr, nc, A); big x is abs(x) > dropTol.
   Columns outer, rows inner, writing through the counter nnz into the new arrays. *)
Definition dense_entry (big : T -> bool) (A : mat T) (j i : nat) (st : nat * csc) : outcome (nat * csc) :=
  let (k, a) := st in
  bind (mget A i j) (fun e =>
  if big e then
    bind (setn (i_ a) k i) (fun i' => bind (setn (x_ a) k e) (fun x' =>
      Ok (S k, mkcsc (m_ a) (n_ a) (nzmax a) (p_ a) i' x')))
  else Ok (k, a)).

Definition dense_col (big : T -> bool) (A : mat T) (j : nat) (st : nat * csc) : outcome (nat * csc) :=
  let (k, a) := st in
  bind (setn (p_ a) j k) (fun p' =>
    for_ (mrows A) (dense_entry big A j) (k, mkcsc (m_ a) (n_ a) (nzmax a) p' (i_ a) (x_ a))).

Definition count_dense (big : T -> bool) (A : mat T) : nat :=
  length (filter big (flat_map (fun i => map (ment A i) (seq 0 (mcols A))) (seq 0 (mrows A)))).

Definition ctor_dense (jp ji : nat -> nat) (jx : nat -> T) (big : T -> bool) (A : mat T) : outcome csc :=
  let nz := count_dense big A in
  if (INT_MAX <? Z.of_nat nz)%Z then Throw
  else
    let cap := Nat.max 1 nz in
    let a0 := mkcsc (mrows A) (mcols A) cap
                (map jp (seq 0 (S (mcols A)))) (map ji (seq 0 cap)) (map jx (seq 0 cap)) in
    bind (for_ (mcols A) (dense_col big A) (0, a0)) (fun '(k, a) =>
    bind (setn (p_ a) (mcols A) k) (fun p' =>
    Ok (mkcsc (m_ a) (n_ a) (nzmax a) p' (i_ a) (x_ a)))).

(* src/CSCMatrix.cpp:87-100, for the compressed matrices with values that CXSparse returns;
   None is the null pointer. *)
Definition ctor_ptr (o : option csc) : outcome csc :=
  match o with Some a => Ok a | None => Throw end.

(* src/CSCMatrix.cpp:102-111 *)
Definition copy_ctor (jp ji : nat -> nat) (jx : nat -> T) (o : csc) : outcome csc :=
  bind (ctor_sizes jp ji jx (rows o) (cols o) (nnz o)) (fun a =>
  bind (for_ (nnz o) (fun k a =>
          bind (getn (i_ o) k) (fun r => bind (getn (x_ o) k) (fun v =>
          bind (setn (i_ a) k r) (fun i' => bind (setn (x_ a) k v) (fun x' =>
            Ok (mkcsc (m_ a) (n_ a) (nzmax a) (p_ a) i' x')))))) a) (fun a =>
  for_ (S (cols o)) (fun k a =>
          bind (getn (p_ o) k) (fun q => bind (setn (p_ a) k q) (fun p' =>
            Ok (mkcsc (m_ a) (n_ a) (nzmax a) p' (i_ a) (x_ a))))) a)).

(* src/CSCMatrix.cpp:138-147; both objects must own a matrix (moved-from objects are not
   represented here). *)
Definition swap (a b : csc) : csc * csc :=
  (mkcsc (m_ b) (n_ b) (nzmax b) (p_ b) (i_ b) (x_ b),
   mkcsc (m_ a) (n_ a) (nzmax a) (p_ a) (i_ a) (x_ a)).

(* src/CSCMatrix.cpp:113-116: lhs = rhs, rhs copied by value first *)
Definition assign (jp ji : nat -> nat) (jx : nat -> T) (lhs rhs : csc) : outcome csc :=
  bind (copy_ctor jp ji jx rhs) (fun other => Ok (fst (swap lhs other))).

(* src/CSCMatrix.cpp:165-170 and 128-133; cs_di_transpose lists, for each row, its entries by
   increasing column. *)
Definition transpose_cols (m : nat) (cs : list column) : list column :=
  map (fun i => flat_map (fun '(j, c) =>
         map (fun e => (j, snd e)) (filter (fun e => fst e =? i) c))
       (combine (seq 0 (length cs)) cs)) (seq 0 m).

Definition transpose (jk : nat * T) (a : csc) : outcome csc :=
  if validb a
  then ctor_ptr (Some (of_cols jk (n_ a) (transpose_cols (m_ a) (cols_of a))))
  else UB.

Variables (add mul : T -> T -> T).

(* x[i] += v on the entries gathered so far, appending on first occurrence
   (the marker array of cs_scatter and cs_dupl) *)
Fixpoint add_to (acc : column) (i : nat) (v : T) : column :=
  match acc with
  | [] => [(i, v)]
  | (i', w) :: acc' => if i' =? i then (i', add w v) :: acc' else (i', w) :: add_to acc' i v
  end.

(* cs_scatter(A, k, b, ...): add b * A(:,k) *)
Definition scatter (ck : column) (b : T) (acc : column) : column :=
  fold_left (fun acc e => add_to acc (fst e) (mul b (snd e))) ck acc.

Definition mul_col (acols : list column) (bcol : column) : column :=
  fold_left (fun acc e => scatter (nth (fst e) acols []) (snd e) acc) bcol [].

(* src/CSCMatrix.cpp:172-177; cs_di_multiply returns null when the inner dimensions differ *)
Definition multiply (jk : nat * T) (a b : csc) : outcome csc :=
  if validb a && validb b then
    ctor_ptr (if n_ a =? m_ b
              then Some (of_cols jk (m_ a) (map (mul_col (cols_of a)) (cols_of b)))
              else None)
  else UB.

(* src/CSCMatrix.cpp:118-121 *)
Definition dedup_col (c : column) : column :=
  fold_left (fun acc e => add_to acc (fst e) (snd e)) c [].

Definition removeDuplicates (jk : nat * T) (a : csc) : outcome csc :=
  if validb a then Ok (of_cols jk (m_ a) (map dedup_col (cols_of a))) else UB.

(* src/CSCMatrix.cpp:123-126; cs_di_droptol keeps the entries with abs(x) > tol and returns how
   many it kept, which prune takes for a success flag. Returns the matrix afterwards and
   whether the call threw. *)
Definition prune (jk : nat * T) (big : T -> bool) (a : csc) : outcome (csc * ended) :=
  if validb a then
    let cs := map (filter (fun e => big (snd e))) (cols_of a) in
    Ok (of_cols jk (m_ a) cs, if length (concat cs) =? 0 then Threw else Done)
  else UB.

End Csc.

Arguments mkcsc {T}. Arguments m_ {T}. Arguments n_ {T}. Arguments nzmax {T}. Arguments p_ {T}.
Arguments i_ {T}. Arguments x_ {T}. Arguments validb {T}. Arguments cols_of {T}.
Arguments of_cols {T}. Arguments ctor_sizes {T}. Arguments ctor_triplet {T}. Arguments ctor_dense {T}.
Arguments copy_ctor {T}. Arguments swap {T}. Arguments assign {T}. Arguments transpose {T}.
Arguments multiply {T}. Arguments removeDuplicates {T}. Arguments prune {T}. Arguments ptrs {T}.
Arguments transpose_cols {T}. Arguments dedup_col {T}. Arguments mul_col {T}. Arguments scatter {T}.
Arguments add_to {T}. Arguments compress_col {T}. Arguments entry_loop {T}. Arguments count_dense {T}.
Arguments ctor_ptr {T}. Arguments rows {T}. Arguments cols {T}. Arguments nnz {T}. Arguments empty {T}.
