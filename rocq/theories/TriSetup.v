(* TriSetup.v - the situation the triangle theorems speak about: a provisioner of order N has been constructed
   for a mesh of K triangles, in exact arithmetic. *)
From Coq Require Import ZArith List.
From Verif Require Import Base Loops Num JacobiModel JacobiSpec DenseSpec Nodes1DSpec TriModel TriSpec TriGeoSpec.
From Coq Require Import Reals.
Import ListNotations.
Local Open Scope R_scope.

Record built (G : R -> R) (solve : mat R -> mat R -> mat R -> outcome (mat R)) (inverse : mat R -> mat R -> outcome (mat R))
  (junk : nat -> nat -> R) (eps : R) (eig : nat -> (nat -> nat -> R) -> list R * (nat -> nat -> R)) (tol : R)
  (N K : nat) (Vert : list R) (EToV : list nat) (el : element) : Prop := Built {
  (* the libraries: tgamma, the linear solver, the inverter and, for the Gauss-Lobatto points, the eigenvalue solver *)
  b_gamma : gamma_like G;
  b_solve : solver_ok solve;
  b_inverse : inverter_ok inverse;
  b_eig : (3 <= N)%nat -> let J := quad_matrix (exact G) eps (0 + 1) (0 + 1) (N - 2) in
     eigen_solution (N - 1) J (fst (eig (N - 1)%nat J)) (snd (eig (N - 1)%nat J));
  (* machine epsilon, the node tolerance and the order *)
  b_eps : 0 <= eps <= 1 / 5;
  b_tol : 0 < tol;
  b_order : (1 <= N)%nat;
  b_int : (Z.of_nat N <= 2147483647)%Z;
  (* every element names three vertices of the mesh *)
  b_mesh : mesh_ok K Vert EToV;
  b_ok : buildElement (exact G) pow solve inverse junk eps eig cos sin PI tol N K Vert EToV = Ok el }.
