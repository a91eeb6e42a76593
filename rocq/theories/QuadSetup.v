(* QuadSetup.v - the situation the quadrilateral theorems speak about: a provisioner of order N has been constructed for a
   mesh of K quadrilaterals, in exact arithmetic, with libraries that do what they document. *)
From Coq Require Import ZArith List.
From Verif Require Import Base Loops Num JacobiModel JacobiSpec DenseSpec Nodes1DSpec TriModel TriSpec TriGeoSpec QuadModel QuadSpec.
From Coq Require Import Reals.
Import ListNotations.
Local Open Scope R_scope.

Record qbuilt (G : R -> R) (solve : mat R -> mat R -> mat R -> outcome (mat R)) (inverse : mat R -> mat R -> outcome (mat R))
  (junk : nat -> nat -> R) (eps : R) (eig : nat -> (nat -> nat -> R) -> list R * (nat -> nat -> R)) (tol : R)
  (N K : nat) (Vert : list R) (EToV : list nat) (el : element) : Prop := QBuilt {
  qb_gamma : gamma_like G;
  qb_solve : solver_ok solve;
  qb_inverse : inverter_ok inverse;
  qb_eig : (3 <= N)%nat -> let J := quad_matrix (exact G) eps (0 + 1) (0 + 1) (N - 2) in
     eigen_solution (N - 1) J (fst (eig (N - 1)%nat J)) (snd (eig (N - 1)%nat J));
  qb_eps : 0 <= eps <= 1 / 5;
  qb_tol : 0 < tol;
  qb_order : (1 <= N)%nat;
  qb_mesh : qmesh_ok K Vert EToV;
  qb_ok : buildQuad (exact G) solve inverse junk eps eig tol N K Vert EToV = Ok el }.
