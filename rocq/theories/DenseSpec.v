(* DenseSpec.v - what LAPACK documents for the routines used, on flat column-major arrays, and what the
   wrappers promise about matrices. Exact arithmetic. *)
From Coq Require Import ZArith List Reals.
From Verif Require Import Loops JacobiSpec.
Import ListNotations.
Local Open Scope R_scope.

(* entry (i,j) of a column-major n-row array *)
Definition cm (n : nat) (a : list R) (i j : nat) : R := nth (i + j * n) a 0.

(* DSGESV: solves A X = B when info = 0 *)
Definition dsgesv_spec (f : nat -> nat -> list R -> list R -> list R * Z) : Prop :=
  forall n nrhs a b, length a = (n * n)%nat -> length b = (n * nrhs)%nat ->
    let (x, info) := f n nrhs a b in
    length x = (n * nrhs)%nat /\
    (info = 0%Z -> forall i j, (i < n)%nat -> (j < nrhs)%nat -> sumn n (fun k => cm n a i k * cm n x k j) = cm n b i j).

(* DGETRF followed by DGETRI: the inverse when both info codes are 0 *)
Definition dgetr_spec (f : nat -> list R -> list R * list Z * Z) (g : nat -> list R -> list Z -> list R * Z) : Prop :=
  forall n a, length a = (n * n)%nat ->
    let '(lu, ipiv, info) := f n a in let (x, info2) := g n lu ipiv in
    length x = (n * n)%nat /\
    (info = 0%Z -> info2 = 0%Z -> forall i j, (i < n)%nat -> (j < n)%nat ->
       sumn n (fun k => cm n a i k * cm n x k j) = (if Nat.eqb i j then 1 else 0) /\
       sumn n (fun k => cm n x i k * cm n a k j) = (if Nat.eqb i j then 1 else 0)).

(* DPOTRF with UPLO = 'U': only the upper triangle of a is read; it is overwritten with U, U^T U = A; the
   strictly lower triangle is not referenced. *)
Definition upper (f : nat -> nat -> R) (i j : nat) : R := if Nat.leb i j then f i j else 0.
Definition dpotrf_spec (f : nat -> list R -> list R * Z) : Prop :=
  forall n a, length a = (n * n)%nat ->
    let (u, info) := f n a in
    length u = (n * n)%nat /\
    (info = 0%Z -> forall i j, (i <= j < n)%nat -> sumn n (fun k => upper (cm n u) k i * upper (cm n u) k j) = cm n a i j).

(* DSYEVD with JOBZ = 'V', UPLO = 'U': eigenvalues (increasing) and orthonormal eigenvectors of the symmetric
   matrix whose upper triangle is that of a. *)
Definition sym_upper (f : nat -> nat -> R) (i j : nat) : R := f (Nat.min i j) (Nat.max i j).
Definition dsyevd_spec (f : nat -> list R -> list R * list R * Z) : Prop :=
  forall n a, length a = (n * n)%nat ->
    let '(z, w, info) := f n a in
    length z = (n * n)%nat /\ length w = n /\
    (info = 0%Z -> eigen_solution n (sym_upper (cm n a)) w (cm n z)).

(* ---- what the wrappers promise ---- *)
Definition shape (m : mat R) (r c : nat) : Prop := mrows m = r /\ mcols m = c.
Definition product_is (n : nat) (A B C : mat R) : Prop :=
  shape C (mrows A) (mcols B) /\
  forall i j, (i < mrows A)%nat -> (j < mcols B)%nat -> sumn n (fun k => ment A i k * ment B k j) = ment C i j.
