(* DenseModel.v - the wrappers around dense LAPACK routines: src/DirectSolver.cpp, src/DenseMatrixinverter.cpp,
   src/DenseCholeskyFactorizer.cpp, src/EigenSolver.cpp. The LAPACK routines are parameters working on flat
   column-major arrays; each returns its output array(s) and the info code. *)
From Coq Require Import ZArith List Bool.
From Verif Require Import Base Loops BlitzModel.
Import ListNotations.
Local Open Scope nat_scope.

Section Dense.
Context {T : Type} (zero : T).

(* info < 0 and info > 0 both throw: src/DirectSolver.cpp:54-60 and the like *)
Definition check_info (info : Z) : outcome unit := if (info =? 0)%Z then Ok tt else Throw.

(* DirectSolver::solve: src/DirectSolver.cpp:24-63. dsgesv n nrhs a b = (x, info). *)
Definition direct_solve (dsgesv : nat -> nat -> list T -> list T -> list T * Z) (A B X : mat T) : outcome (mat T) :=
  let sz := mrows A in let nrhs := mcols B in
  bind (reshapeMatTo1D A false (repeat zero (sz * sz))) (fun Apod =>
  bind (reshapeMatTo1D B false (repeat zero (sz * nrhs))) (fun Bpod =>
  let (Xpod, info) := dsgesv sz nrhs Apod Bpod in
  bind (check_info info) (fun _ => reshape1DToMat Xpod false X))).

(* DenseMatrixInverter::computeInverse: src/DenseMatrixinverter.cpp:26-60.
   dgetrf n a = (factors, pivots, info); dgetri n factors pivots = (inverse, info). *)
Definition computeInverse (dgetrf : nat -> list T -> list T * list Z * Z) (dgetri : nat -> list T -> list Z -> list T * Z)
    (A Ainv : mat T) : outcome (mat T) :=
  let N := mrows A in
  bind (reshapeMatTo1D A false (repeat zero (N * N))) (fun Apod =>
  let '(lu, ipiv, info) := dgetrf N Apod in
  bind (check_info info) (fun _ =>
  let (inv, info2) := dgetri N lu ipiv in
  bind (check_info info2) (fun _ => reshape1DToMat inv false Ainv))).

(* DenseCholeskyFactorizer::computeCholesky: src/DenseCholeskyFactorizer.cpp:23-54. dpotrf n a = (factor, info),
   called with UPLO = 'U'. *)
Definition computeCholesky (dpotrf : nat -> list T -> list T * Z) (A R : mat T) : outcome (mat T) :=
  let N := mrows A in
  bind (reshapeMatTo1D A false (repeat zero (N * N))) (fun Apod =>
  let (f, info) := dpotrf N Apod in
  bind (check_info info) (fun _ =>
  bind (reshape1DToMat f false R) (fun R1 =>
  for_from 1 (mrows R1 - 1) (fun i => for_ i (fun j R => mset R i j zero)) R1))).

(* EigenSolver::solve: src/EigenSolver.cpp:24-73. query is the workspace call (its info code);
   dsyevd n a = (eigenvector array, eigenvalues, info), called with JOBZ = 'V', UPLO = 'U'. The matrix is
   copied row by row. *)
Definition eigen_solve (query : nat -> list T -> Z) (dsyevd : nat -> list T -> list T * list T * Z)
    (A : mat T) (w : list T) (Z0 : mat T) : outcome (list T * mat T) :=
  let sz := mrows A in
  bind (reshapeMatTo1D A true (repeat zero (sz * sz))) (fun Apod =>
  bind (check_info (query sz Apod)) (fun _ =>
  let '(vecs, ww, info) := dsyevd sz Apod in
  bind (check_info info) (fun _ =>
  bind (reshape1DToMat vecs false Z0) (fun Z1 =>
  bind (for_ sz (fun i w => bind (getn ww i) (fun x => setn w i x)) w) (fun w1 => Ok (w1, Z1)))))).
End Dense.
