(* QuadGradProps.v - C70, continued: the derivatives in x and y on quadrilaterals. *)
From Coq Require Import ZArith List Lia.
From Verif Require Import Base Loops Num DenseModel DenseSpec JacobiModel JacobiSpec JacobiQuadProofs TriModel TriSpec TriGeoSpec TriOpProofs QuadModel QuadSpec QuadSetup QuadProps QuadGradProofs.
From Coq Require Import Reals Lra.
Import ListNotations.
Local Open Scope R_scope.

(* C70: the differentiation matrices and metric factors give exact gradients. On a convex counter-clockwise element, for the
   nodal values of any polynomial in x and y of total degree at most N, rx Dr f + sx Ds f and ry Dr f + sy Ds f are its partial
   derivatives in x and y at every node - although the map to the element is not affine. *)
Theorem C70_gradient G solve inverse junk eps eig tol N K Vert EToV el : qbuilt G solve inverse junk eps eig tol N K Vert EToV el ->
  forall k, (k < K)%nat -> convex_ccw (qcorner Vert EToV k) -> forall W f, degree2 N W ->
  let Np := ((N + 1) * (N + 1))%nat in let m := e_metric el in
  (forall j, (j < Np)%nat -> f j = eval2 W (ment (e_x el) j k) (ment (e_y el) j k)) ->
  forall i, (i < Np)%nat -> let x := ment (e_x el) i k in let y := ment (e_y el) i k in
  let fr := sumn Np (fun j => ment (e_Dr el) i j * f j) in let fs := sumn Np (fun j => ment (e_Ds el) i j * f j) in
  dr_is (eval2 W) x y (ment (g_rx m) i k * fr + ment (g_sx m) i k * fs) /\
  ds_is (eval2 W) x y (ment (g_ry m) i k * fr + ment (g_sy m) i k * fs).
Proof.
  intros HB k Hk Hc W f DW. cbv zeta. intros Hf i Hi. destruct (quad_gradient _ _ _ _ _ _ _ _ _ _ _ _ HB k f W Hk Hc DW Hf i Hi) as (-> & ->). split; [apply ddr_ok|apply dds_ok].
Qed.
From Verif Require Import Nodes1DExactProofs JacobiExactProofs JacobiProps TriWitness QuadWitness.
Example C70_gradient_witness : exists el, qbuilt gwit solve4 inverse4 junk0 0 eig0 (1 / 10) 1 2 qVert qEToV el /\
  (forall k, (k < 2)%nat -> convex_ccw (qcorner qVert qEToV k)) /\ degree2 1 [(1%nat, 0%nat, 2); (0%nat, 1%nat, -3)].
Proof.
  destruct quad_witness as (el & HB). exists el. split; [exact HB|]. split; [exact quad_witness_convex|]. apply Forall_cons; [cbn; lia|]. apply Forall_cons; [cbn; lia|]. apply Forall_nil.
Qed.
Print Assumptions C70_gradient.
