(* QuadVolSpec.v - the volume of water over a mesh of quadrilaterals. *)
From Coq Require Import ZArith List Reals.
From Verif Require Import Base Loops JacobiSpec TriSpec TriGeoSpec QuadSpec.
Import ListNotations.
Local Open Scope R_scope.

(* area of the image of a small square around (r,s) under the bilinear map onto the quadrilateral with corners p, per area of
   the square: at a corner a quarter of the cross product of the two sides there, and linear in between (the derivative form is
   in C70_metric) *)
Definition area_scale (p : nat -> point) (r s : R) : R := sumn 4 (fun c => corner_weight c r s * (corner_cross p c / 4)).
(* v is the integral, over the quadrilateral, of the function that is f in the coordinates of the square *)
Definition quad_integral (p : nat -> point) (f : R -> R -> R) (v : R) : Prop := square_integral (fun r s => area_scale p r s * f r s) v.
(* v is the volume of water under the depth that on each element is the polynomial, of degree at most N in each of r and s,
   with the values h at the nodes (columns are elements) *)
Definition quad_volume_is (N Np K : nat) (Vert : list R) (EToV : list nat) (r s : list R) (h : mat R) (v : R) : Prop :=
  exists (Z : nat -> poly2) (w : nat -> R),
    (forall k, (k < K)%nat -> tdegree N (Z k) /\ (forall i, (i < Np)%nat -> eval2 (Z k) (nth i r 0) (nth i s 0) = ment h i k) /\
       quad_integral (fun c => qcorner Vert EToV k c) (eval2 (Z k)) (w k)) /\
    v = sumn K w.
(* opposite sides are parallel: the diagonals bisect each other *)
Definition parallelogram (p : nat -> point) : Prop :=
  fst (p 0%nat) + fst (p 2%nat) = fst (p 1%nat) + fst (p 3%nat) /\ snd (p 0%nat) + snd (p 2%nat) = snd (p 1%nat) + snd (p 3%nat).
