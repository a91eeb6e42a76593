(* GaussFaceSpec.v - what buildGaussFaceNodes is asked for. *)
From Coq Require Import ZArith List Reals.
From Verif Require Import Base Loops Num JacobiModel JacobiSpec MeshSpec TriSpec TriGeoSpec TriDGSpec TriSetup TriMapsProps.
From Verif Require Import TriModel.
Local Open Scope R_scope.

(* A provisioner of order N has been built for a consistently oriented mesh of K triangles with connectivity E2E, E2F and
   boundary tags bcVec; NG >= 1 Gauss points per side are wanted and the eigenvalue solver solves the NG x NG problem for them. *)
Record gauss_ready G solve inverse junk eps eig tol N K Vert EToV el E2E E2F (bcVec : list Z) (NG : nat) : Prop := {
  gr_built : built G solve inverse junk eps eig tol N K Vert EToV el;
  gr_mesh : tri_mesh K Vert EToV E2E E2F;
  gr_tags : (3 * K <= length bcVec)%nat;
  gr_pos : (1 <= NG)%nat;
  gr_eig : (2 <= NG)%nat -> let J := quad_matrix (exact G) eps 0 0 (NG - 1) in
    eigen_solution NG J (fst (eig NG J)) (snd (eig NG J)) }.

(* Corner of side f of element k at which the side starts, at which it ends, and the corner opposite to it. *)
Definition side_start (Vert : list R) (EToV : list nat) (k f : nat) : point := TriGeoSpec.corner Vert EToV k f.
Definition side_end (Vert : list R) (EToV : list nat) (k f : nat) : point := TriGeoSpec.corner Vert EToV k ((f + 1) mod 3).
Definition side_opposite (Vert : list R) (EToV : list nat) (k f : nat) : point := TriGeoSpec.corner Vert EToV k ((f + 2) mod 3).
Definition cell_area (Vert : list R) (EToV : list nat) (k : nat) : R :=
  area (TriGeoSpec.corner Vert EToV k 0) (TriGeoSpec.corner Vert EToV k 1) (TriGeoSpec.corner Vert EToV k 2).
Definition cell_image (Vert : list R) (EToV : list nat) (k : nat) : R -> R -> point :=
  affine_image (TriGeoSpec.corner Vert EToV k 0) (TriGeoSpec.corner Vert EToV k 1) (TriGeoSpec.corner Vert EToV k 2).

(* Gauss point g of side f of element k has the number g + f NG + k 3 NG; its entry in a matrix of face data. *)
Definition gauss_number (NG g f k : nat) : nat := (g + f * NG + k * 3 * NG)%nat.
Definition gauss_at (NG : nat) (M : mat R) (i : nat) : R := ment M (i mod (3 * NG)) (i / (3 * NG)).
