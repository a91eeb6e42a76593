(* CubMeshModel.v - TriangleNodesProvisioner::buildCubatureVolumeMesh (src/TriangleNodesProvisioner.cpp:81-204): interpolation,
   differentiation, geometry and element mass matrices at the points of a cubature rule. *)
From Coq Require Import ZArith List Bool Arith.
From Verif Require Import Base Loops Num Nodes1DModel TriModel CubModel.
Import ListNotations.
Local Open Scope nat_scope.

(* CubatureContext2D (include/CubatureContext2D.hpp:14-74), and in cc_nodal the arrays J, rx, ry, sx, sy of the provisioner,
   which the function overwrites. A three-dimensional array is the list of its K slices. *)
Record cub_mesh (T : Type) := CubMesh { cc_n : nat; cc_r : list T; cc_s : list T; cc_w : list T; cc_V : mat T; cc_metric : metric (T := T);
  cc_Dr : mat T; cc_Ds : mat T; cc_MM : list (mat T); cc_chol : list (mat T); cc_x : mat T; cc_y : mat T; cc_W : mat T; cc_nodal : metric (T := T) }.
Arguments CubMesh {T}. Arguments cc_n {T}. Arguments cc_r {T}. Arguments cc_s {T}. Arguments cc_w {T}. Arguments cc_V {T}. Arguments cc_metric {T}.
Arguments cc_Dr {T}. Arguments cc_Ds {T}. Arguments cc_MM {T}. Arguments cc_chol {T}. Arguments cc_x {T}. Arguments cc_y {T}. Arguments cc_W {T}. Arguments cc_nodal {T}.

Section CubMesh.
Context {T : Type}.
Variable A : arith T.
Variable powi : T -> nat -> T.
Variable solve : mat T -> mat T -> mat T -> outcome (mat T).     (* DirectSolver::solve *)
Variable chol : mat T -> mat T -> outcome (mat T).               (* DenseCholeskyFactorizer::computeCholesky *)
Variable junk : nat -> nat -> T.                                 (* uninitialised matrices *)
Variable lit : Z -> T.                                           (* the literals of the cubature tables, see CubModel *)
Variable junkc : nat -> T.                                       (* uninitialised entries of the cubature tables *)

(* computeDifferentiationMatrices (456-513) called with matrices of another number of rows than V (line 101). With fewer
   rows, lines 497-498 read columns of V2Drtrans it does not have and the solve of line 504 copies an Np x Nc matrix into an
   array of Nc * Nc numbers. *)
Definition diff_matrices_at (Vr Vs V Vc : mat T) : outcome (mat T * mat T * mat T * mat T) :=
  if mrows Vr <? mrows V then
    bind (solve (mtrans V) (mtrans Vr) (mzero A (mrows V) (mrows Vr))) (fun _ =>
    bind (solve (mtrans V) (mtrans Vs) (mzero A (mrows V) (mrows Vr))) (fun _ => UB))
  else computeDifferentiationMatrices A solve junk Vr Vs V Vc.

(* lines 110-121: as metricTerms of TriModel, with the Jacobian in another order *)
Definition cub_metric (Dr Ds x y : mat T) : metric :=
  let xr := mmul A Dr x in let xs := mmul A Ds x in let yr := mmul A Dr y in let ys := mmul A Ds y in
  let neg := fun m => mkmat (mrows m) (mcols m) (fun i j => fopp A (ment m i j)) in
  let J := mzip (fadd A) (mzip (fmul A) (neg xs) yr) (mzip (fmul A) xr ys) in
  Metric xr xs yr ys J (mzip (fdiv A) ys J) (mzip (fdiv A) (neg xs) J) (mzip (fdiv A) (neg yr) J) (mzip (fdiv A) xr J).

(* lines 168-182: the mass matrix of one element and its factor; Jcubdiag keeps its zeros off the diagonal *)
Definition cub_mass (n : nat) (w : list T) (J Vc : mat T) (k : nat) : outcome (mat T * mat T) :=
  let d := mkmat n n (fun i j => if i =? j then fmul A (ment J i k) (nth i w (fofn A 0)) else fofn A 0) in
  let MM := mmul A (mtrans Vc) (mmul A d Vc) in
  bind (chol MM (mzero A (mcols Vc) (mcols Vc))) (fun U => Ok (MM, U)).
Definition cub_masses (n K : nat) (w : list T) (J Vc : mat T) : outcome (list (mat T) * list (mat T)) :=
  for_ K (fun k st => bind (cub_mass n w J Vc k) (fun '(M, U) => Ok (fst st ++ [M], snd st ++ [U]))) ([], []).

(* lines 81-204 *)
Definition buildCubatureVolumeMesh (NCub : Z) (N K : nat) (V Vinv Dr Ds x y : mat T) : outcome (cub_mesh T) :=
  bind (NumCubaturePoints lit (fsub A) junkc NCub) (fun n =>
  bind (rCoord lit (fsub A) junkc NCub) (fun r => bind (sCoord lit (fsub A) junkc NCub) (fun s => bind (weights lit (fsub A) junkc NCub) (fun w =>
  let Np := mrows Vinv in
  bind (computeInterpMatrix A powi junk N Vinv r s) (fun Vc =>
  bind (computeGradVandermonde2D A powi N r s (mkmat n Np junk) (mkmat n Np junk)) (fun '(Vr, Vs) =>
  bind (diff_matrices_at Vr Vs V Vc) (fun '(Drc, Dsc, _, _) =>
  let g := cub_metric Drc Dsc x y in
  let nodal := metricTerms A Dr Ds x y in
  let W := mkmat n K (fun i k => fmul A (fmul A (nth i w (fofn A 0)) (fadd A (fmul A (fofn A 0) (fofn A k)) (fofn A 1))) (ment (g_J g) i k)) in
  bind (cub_masses n K w (g_J g) Vc) (fun '(MM, U) =>
  Ok (CubMesh n r s w Vc g Drc Dsc MM U (mmul A Vc x) (mmul A Vc y) W nodal))))))))).
End CubMesh.
