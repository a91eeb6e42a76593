(* PoissonLoadSpec.v - what boundary data contribute to the right-hand side of the Poisson problem. *)
From Coq Require Import ZArith List Reals.
From Verif Require Import Base Loops JacobiSpec TriSpec TriGeoSpec TriDGSpec SwSpec PoissonSpec Nodes1DModel DenseSpec.
Import ListNotations.
Local Open Scope R_scope.

(* Data along the sides: a function of the element, the side, and the place -1..1 along the side from its first corner to its
   second. *)
Definition side_data := nat -> nat -> R -> R.
(* The table B holds the data g of the sides for which `on` is true: on each of them g is a polynomial of degree N, and row
   f*(N+1)+j, column k of B is its value at node number j of side f of element k. *)
Definition tabulates (N K : nat) (Vert : list R) (EToV : list nat) (x y : mat R) (Fm : mat nat) (on : nat -> nat -> Prop) (B : mat R) (g : side_data) : Prop :=
  shape B (3 * S N) K /\
  forall k f, (k < K)%nat -> (f < 3)%nat -> on k f ->
    (exists cs, (length cs <= S N)%nat /\ forall t, g k f t = peval cs t) /\
    forall j t, (j <= N)%nat -> node_at x y (ment Fm j f) k = side_point (from_ Vert EToV k f) (to_ Vert EToV k f) t -> ment B (f * S N + j) k = g k f t.

Section Load.
Variables (N K : nat) (Vert : list R) (EToV : list nat) (bcType : list Z).
(* g is prescribed for the solution on Dirichlet sides, q for its normal derivative on Neumann and Wall sides *)
Variables g q : side_data.
Local Notation A k f := (from_ Vert EToV k f).
Local Notation B k f := (to_ Vert EToV k f).

(* what side f of element k contributes, tested against V *)
Definition side_load (k f : nat) (V : piecewise) (w : R) : Prop :=
  exists k2 f2 n, across K EToV k f k2 f2 /\ normal_of Vert EToV k f n /\
  (dirichlet bcType k f -> side_integral (A k f) (B k f)
     (fun t => let P := side_point (A k f) (B k f) t in (tau N Vert EToV k f k2 f2 * val_at V k P - along n V k P) * g k f t) w) /\
  (natural bcType k f -> side_integral (A k f) (B k f) (fun t => val_at V k (side_point (A k f) (B k f) t) * q k f t) w) /\
  (interior bcType k f -> w = 0).
Definition load (V : piecewise) (v : R) : Prop :=
  exists sd : nat -> nat -> R, (forall k f, (k < K)%nat -> (f < 3)%nat -> side_load k f V (sd k f)) /\
  v = sumn K (fun k => sd k 0%nat + sd k 1%nat + sd k 2%nat).
End Load.

(* The data of a polynomial p: its values, and its derivative along the outward normal *)
Definition values_of (Vert : list R) (EToV : list nat) (p : poly2) : side_data :=
  fun k f t => at_point p (side_point (from_ Vert EToV k f) (to_ Vert EToV k f) t).
Definition normal_derivative_of (Vert : list R) (EToV : list nat) (px py : poly2) (nrm : nat -> nat -> point) : side_data :=
  fun k f t => let P := side_point (from_ Vert EToV k f) (to_ Vert EToV k f) t in fst (nrm k f) * at_point px P + snd (nrm k f) * at_point py P.
(* px, py are the first derivatives of p *)
Definition gradient_of (p px py : poly2) : Prop :=
  (forall X Y, dr_is (eval2 p) X Y (eval2 px X Y)) /\ (forall X Y, ds_is (eval2 p) X Y (eval2 py X Y)).
(* row i of the sparse matrix a times the vector u, of n entries *)
Definition row_times (n : nat) (a : CscModel.csc R) (u : nat -> R) (i : nat) : R := sumn n (fun j => entry_of a i j * u j).
