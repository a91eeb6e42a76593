(* BlitzModel.v - array helpers of include/BlitzHelpers.hpp. *)
From Coq Require Import ZArith List Lia Bool.
From Verif Require Import Base Loops.
Import ListNotations.

(* An output/input iterator into an array is the pair (array contents, offset). *)

Section Reshape.
Context {T : Type}.

(* *arrItr++ = mat(i, j) *)
Definition put_next (m : mat T) (i j : nat) (st : list T * nat) : outcome (list T * nat) :=
  let (arr, k) := st in
  bind (mget m i j) (fun x => bind (setn arr k x) (fun arr' => Ok (arr', S k))).

(* mat(i, j) = *arrItr++ *)
Definition take_next (arr : list T) (i j : nat) (st : mat T * nat) : outcome (mat T * nat) :=
  let (m, k) := st in
  bind (getn arr k) (fun x => bind (mset m i j x) (fun m' => Ok (m', S k))).

(* include/BlitzHelpers.hpp:215-233 reshapeMatTo1D: the array pointed to is arr, from offset k. *)
Definition reshapeMatTo1D (m : mat T) (byRows : bool) (arr : list T) : outcome (list T) :=
  bind
    (if byRows
     then for_ (mrows m) (fun i => for_ (mcols m) (fun j => put_next m i j)) (arr, 0)
     else for_ (mcols m) (fun j => for_ (mrows m) (fun i => put_next m i j)) (arr, 0))
    (fun st => Ok (fst st)).

(* include/BlitzHelpers.hpp:244-262 reshape1DToMat. *)
Definition reshape1DToMat (arr : list T) (byRows : bool) (m : mat T) : outcome (mat T) :=
  bind
    (if byRows
     then for_ (mrows m) (fun i => for_ (mcols m) (fun j => take_next arr i j)) (m, 0)
     else for_ (mcols m) (fun j => for_ (mrows m) (fun i => take_next arr i j)) (m, 0))
    (fun st => Ok (fst st)).

(* include/BlitzHelpers.hpp:283-285, 294-296. *)
Definition vectorToFull (vec : list T) (m : mat T) (byRows : bool) := reshape1DToMat vec byRows m.
Definition fullToVector (m : mat T) (vec : list T) (byRows : bool) := reshapeMatTo1D m byRows vec.

(* include/BlitzHelpers.hpp:270-275 applyIndexMap; map entries are non-negative here. *)
Definition applyIndexMap (vec : list T) (map : list nat) (out : list T) : outcome (list T) :=
  for_ (length map) (fun k out =>
    bind (getn map k) (fun ix => bind (getn vec ix) (fun x => setn out k x))) out.

End Reshape.

Section Kron.
Context {T : Type}.
Variable mul : T -> T -> T.

(* include/BlitzHelpers.hpp:305-320. junk is the uninitialised content of the new matrix C;
   the blitz sub-array assignment is the double loop over its elements. *)
Definition kron (junk : nat -> nat -> T) (A B : mat T) : outcome (mat T) :=
  let Br := mrows B in let Bc := mcols B in
  let Ar := mrows A in let Ac := mcols A in
  for_ Ar (fun i => for_ Ac (fun j C =>
    bind (mget A i j) (fun a =>
    for_ Br (fun p => for_ Bc (fun q C =>
      bind (mget B p q) (fun b => mset C (j * Br + p) (i * Bc + q) (mul a b)))) C)))
  (mkmat (Ar * Br) (Ac * Bc) junk).

End Kron.

(* ---- unique / uniquetol ---- *)
Section Unique.
Variable T : Type.
Variable ltb : T -> T -> bool.                (* operator< on T *)
(* real_type arithmetic used by the tolerance code *)
Variables (zero : T) (add sub mul div : T -> T -> T) (abs : T -> T) (of_nat : nat -> T).

(* std::sort(first, last, comp) as a function of the comparator and the range. *)
Variable sort : (nat -> nat -> bool) -> list nat -> list nat.

(* The matrix argument: the entry at (row, column); rows and cols are its shape. Row indices
   used below always come from iota over the rows, column indices from the loop bounds or the
   ordering. *)
Variable A : nat -> nat -> T.
Variables (rows cols : nat).

(* include/BlitzHelpers.hpp:46-57 CompareExact::operator() *)
Fixpoint compareExact (ord : list nat) (l r : nat) : bool :=
  match ord with
  | [] => false
  | j :: ord' =>
      if ltb (A l j) (A r j) then true
      else if ltb (A r j) (A l j) then false
      else compareExact ord' l r
  end.

(* include/BlitzHelpers.hpp:322-343, loop body of unique *)
Definition unique_step (comp : nat -> nat -> bool) (k : nat) (st : nat * list nat * list nat)
  : outcome (nat * list nat * list nat) :=
  let '(i, gather, scatter) := st in
  bind (getn gather i) (fun curr =>
  bind (getn gather k) (fun next =>
  if comp curr next || comp next curr
  then bind (setn gather (S i) next) (fun gather' =>
       bind (setn scatter next (S i)) (fun scatter' => Ok (S i, gather', scatter')))
  else bind (setn scatter next i) (fun scatter' => Ok (i, gather, scatter')))).

(* gather.resize(i + 1): new elements, if any, are 0 *)
Definition resizen (l : list nat) (n : nat) : list nat := firstn n l ++ repeat 0 (n - length l).

Definition unique : outcome (list nat * list nat) :=
  let comp := compareExact (seq 0 cols) in
  let gather := sort comp (seq 0 rows) in
  bind (for_ rows (unique_step comp) (0, gather, repeat 0 rows))
       (fun '(i, gather, scatter) => Ok (resizen gather (S i), scatter)).

(* std::max(a, b) is (a < b) ? b : a *)
Definition stdmax (a b : T) : T := if ltb a b then b else a.
(* a <= b, for values that are not NaN *)
Definition leb (a b : T) : bool := negb (ltb b a).

(* include/BlitzHelpers.hpp:73-84, and 111-122 for one column: the tolerance of column j *)
Definition colTol (tol : T) (j : nat) : T :=
  if ltb zero tol
  then mul (fold_left (fun t i => stdmax t (abs (A i j))) (seq 0 rows) zero) tol
  else zero.

(* include/BlitzHelpers.hpp:86-95 CompareEQ::operator() *)
Definition compareEQ (tol : T) (l r : nat) : bool :=
  forallb (fun j => negb (ltb (colTol tol j) (abs (sub (A l j) (A r j))))) (seq 0 cols).

(* include/BlitzHelpers.hpp:103-105 CompareEQByDim::operator() *)
Definition compareEQByDim (dim : nat) (tol : T) (l r : nat) : bool :=
  leb (abs (sub (A l dim) (A r dim))) (colTol tol dim).

(* include/BlitzHelpers.hpp:125-144 getOrdering: running mean and sum of squared deviations of
   column j, then the columns sorted by decreasing sum. *)
Definition colVar (j : nat) : T :=
  snd (fold_left (fun '(mn, var) i =>
         let delta := sub (A i j) mn in
         let mn' := add mn (div delta (of_nat (S i))) in
         let delta2 := sub (A i j) mn' in
         (mn', add var (mul delta delta2))) (seq 0 rows) (zero, zero)).

Definition getOrdering : list nat :=
  if (cols <? 2)%nat then [0]
  else sort (fun i j => ltb (colVar j) (colVar i)) (seq 0 cols).

(* include/BlitzHelpers.hpp:367-376, the inner while loop: `first` and `last` are offsets of the
   iterators in gather. Returns gather, scatter, first, last. The fuel bounds the number of
   iterations; running out is reported as UB and shown not to happen. *)
Fixpoint uniquetol_inner (byDim comp : nat -> nat -> bool) (seed nunique : nat) (fuel : nat)
  (gather scatter : list nat) (first last : nat) : outcome (list nat * list nat * nat * nat) :=
  if (last =? length gather)%nat then Ok (gather, scatter, first, last)
  else bind (getn gather last) (fun x =>
    if byDim seed x then
      match fuel with
      | O => UB
      | S fuel' =>
          if negb (comp seed x)
          then bind (setn gather first x) (fun gather' =>
               uniquetol_inner byDim comp seed nunique fuel' gather' scatter (S first) (S last))
          else bind (setn scatter x nunique) (fun scatter' =>
               uniquetol_inner byDim comp seed nunique fuel' gather scatter' first (S last))
      end
    else Ok (gather, scatter, first, last)).

(* gather.erase(first, last) *)
Definition erase (l : list nat) (first last : nat) : list nat := firstn first l ++ skipn last l.

(* include/BlitzHelpers.hpp:363-381, the outer while loop *)
Fixpoint uniquetol_outer (byDim comp : nat -> nat -> bool) (fuel : nat)
  (gather scatter : list nat) (curr nunique : nat) : outcome (list nat * list nat) :=
  if (curr =? length gather)%nat then Ok (gather, scatter)
  else match fuel with
  | O => UB
  | S fuel' =>
      bind (getn gather curr) (fun seed =>
      bind (uniquetol_inner byDim comp seed nunique (length gather) gather scatter (S curr) (S curr))
        (fun '(gather, scatter, first, last) =>
      bind (setn scatter seed nunique) (fun scatter =>
      uniquetol_outer byDim comp fuel' (erase gather first last) scatter (S curr) (S nunique))))
  end.

(* include/BlitzHelpers.hpp:345-383 *)
Definition uniquetol (tol : T) : outcome (list nat * list nat) :=
  if leb tol zero then unique
  else
    let order := getOrdering in
    let gather := sort (compareExact order) (seq 0 rows) in
    bind (getn order 0) (fun d =>
    uniquetol_outer (compareEQByDim d tol) (compareEQ tol) rows gather (repeat 0 rows) 0 0).

(* include/BlitzHelpers.hpp:386-404 orderColsByNorm *)
Definition colNorm (j : nat) : T :=
  fold_left (fun s i => add s (mul (A i j) (A i j))) (seq 0 rows) zero.
Definition orderColsByNorm : list nat :=
  if (cols <? 2)%nat then [0]
  else sort (fun i j => ltb (colNorm j) (colNorm i)) (seq 0 cols).

(* include/BlitzHelpers.hpp:420-428, loop body; k runs over 1 .. rows-1 *)
Definition matlab_step (comp : nat -> nat -> bool) (k : nat) (st : nat * list nat * list nat)
  : outcome (nat * list nat * list nat) :=
  let '(i, gather, scatter) := st in
  bind (getn gather (k - 1)) (fun curr =>
  bind (getn gather k) (fun next =>
  if negb (comp curr next)
  then bind (setn gather (S i) next) (fun gather' =>
       bind (setn scatter next (S i)) (fun scatter' => Ok (S i, gather', scatter')))
  else bind (setn scatter next i) (fun scatter' => Ok (i, gather, scatter')))).

(* include/BlitzHelpers.hpp:405-431 *)
Definition uniquetolMatlab (tol : T) : outcome (list nat * list nat) :=
  if leb tol zero then unique
  else
    let gather := sort (compareExact orderColsByNorm) (seq 0 rows) in
    bind (getn gather 0) (fun g0 =>
    bind (setn (repeat 0 rows) g0 0) (fun scatter =>
    bind (for_from 1 (rows - 1) (matlab_step (compareEQ tol)) (0, gather, scatter))
       (fun '(i, gather, scatter) => Ok (resizen gather (S i), scatter)))).

End Unique.
