(* CubMeshSpec.v - the setting of buildCubatureVolumeMesh. *)
From Coq Require Import ZArith List.
From Verif Require Import Base Loops JacobiSpec DenseSpec TriModel TriSpec TriSetup CubSpec GaussFaceSpec.
From Coq Require Import Reals.
Import ListNotations.
Local Open Scope R_scope.

(* A Cholesky factorizer (C61_cholesky): throws, or returns the upper triangular factor. *)
Definition cholesky_of (n : nat) (A U : mat R) : Prop := shape U n n /\ (forall i j, (j < i < n)%nat -> ment U i j = 0) /\
  forall i j, (i < n)%nat -> (j < n)%nat -> sumn n (fun k => ment U k i * ment U k j) = ment A i j.
Definition factorizer_ok (chol : mat R -> mat R -> outcome (mat R)) : Prop :=
  forall n A X, shape A n n -> shape X n n -> (forall i j, (i < n)%nat -> (j < n)%nat -> ment A i j = ment A j i) ->
    chol A X = Throw \/ exists U, chol A X = Ok U /\ cholesky_of n A U.

(* A solver that notices a singular matrix, whatever the right-hand side. *)
Definition singular (n : nat) (A : mat R) : Prop :=
  exists c, (exists i, (i < n)%nat /\ c i <> 0) /\ forall j, (j < n)%nat -> sumn n (fun i => c i * ment A i j) = 0.
Definition rejects_singular (solve : mat R -> mat R -> mat R -> outcome (mat R)) : Prop :=
  forall n A B X, shape A n n -> singular n A -> solve A B X = Throw.

(* The operators of order N built on a mesh of K triangles of nonzero area, and a cubature order other than the faulty
   orders 3 and 4 (C53). *)
Record cub_ready (G : R -> R) (solve : mat R -> mat R -> mat R -> outcome (mat R)) (inverse chol : mat R -> mat R -> outcome (mat R))
  (junk : nat -> nat -> R) (eps : R) (eig : nat -> (nat -> nat -> R) -> list R * (nat -> nat -> R)) (tol : R)
  (N K : nat) (Vert : list R) (EToV : list nat) (el : element (T := R)) (lit : Z -> R) (NC : nat) : Prop := {
  cr_built : built G solve inverse junk eps eig tol N K Vert EToV el;
  cr_chol : factorizer_ok chol;
  cr_area : forall k, (k < K)%nat -> cell_area Vert EToV k <> 0;
  cr_lit : literal_values lit;
  cr_order : (1 <= NC <= 28)%nat /\ NC <> 3%nat /\ NC <> 4%nat }.

(* The value of a matrix, as a bilinear form, on the values of two polynomials at the nodes of element k. *)
Definition nodal_form (el : element (T := R)) (M : mat R) (k : nat) (p q : poly2) : R :=
  let n := length (e_r el) in let u := fun a => eval2 p (ment (e_x el) a k) (ment (e_y el) a k) in let v := fun a => eval2 q (ment (e_x el) a k) (ment (e_y el) a k) in
  sumn n (fun a => sumn n (fun b => u a * ment M a b * v b)).
