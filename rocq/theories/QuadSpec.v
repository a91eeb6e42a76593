(* QuadSpec.v - the reference square [-1,1] x [-1,1], bilinear quadrilaterals, and what the matrices built on them are
   expected to do. Polynomials (poly2, eval2) and partial derivatives are those of TriSpec.v, points and vectors those of
   TriGeoSpec.v. *)
From Coq Require Import ZArith List Reals.
From Verif Require Import Base Loops JacobiSpec TriSpec TriGeoSpec.
Import ListNotations.
Local Open Scope R_scope.

(* degree at most N in each variable *)
Definition tdegree (N : nat) (p : poly2) : Prop := Forall (fun t => (fst (fst t) <= N)%nat /\ (snd (fst t) <= N)%nat) p.

(* The integral of f over the square is v (first over r, then over s). *)
Definition square_integral (f : R -> R -> R) (v : R) : Prop :=
  exists I, (forall s, integral_is (fun r => f r s) (-1) 1 (I s)) /\ integral_is I (-1) 1 v.

(* M maps the values of every polynomial of degree at most N in each variable at the points (r,s) to the values g p at the
   points (r',s'). *)
Definition maps_tensor (N : nat) (M : mat R) (r s r' s' : list R) (g : poly2 -> R -> R -> R -> Prop) : Prop :=
  forall p i, tdegree N p -> (i < length r')%nat ->
    g p (nth i r' 0) (nth i s' 0) (sumn (length r) (fun m => ment M i m * eval2 p (nth m r 0) (nth m s 0))).

(* The four edges of the square, parametrised by t in [-1,1]: bottom s = -1, right r = 1, top s = 1, left r = -1. *)
Definition square_edge (f : nat) (t : R) : R * R := match f with O => (t, -1) | 1%nat => (1, t) | 2%nat => (t, 1) | _ => (-1, t) end.
Definition square_coord (f : nat) (r s : R) : R := match f with O | 2%nat => r | _ => s end.

(* Corner c (0..3) of element k: element k's vertex numbers are entries 4k .. 4k+3 of EToV; vertex v has its coordinates
   x, y, z at 3v, 3v+1, 3v+2 of Vert. *)
Definition qcorner (Vert : list R) (EToV : list nat) (k c : nat) : point :=
  let v := nth (4 * k + c) EToV 0%nat in (nth (3 * v) Vert 0, nth (3 * v + 1) Vert 0).
Definition qmesh_ok (K : nat) (Vert : list R) (EToV : list nat) : Prop :=
  length EToV = (4 * K)%nat /\ forall v, In v EToV -> (3 * v + 2 < length Vert)%nat.

(* the point a fraction (1+t)/2 of the way from p to q *)
Definition along (p q : point) (t : R) : point := (fst p + (1 + t) / 2 * (fst q - fst p), snd p + (1 + t) / 2 * (snd q - snd p)).
(* the bilinear map taking (-1,-1), (1,-1), (1,1), (-1,1) to a, b, c, d: across from the point of side a-d to that of b-c *)
Definition bilinear_image (a b c d : point) (r s : R) : point := along (along a d s) (along b c s) r.
(* the share of corner c at (r,s): 1 at that corner, 0 at the three others, linear in between *)
Definition corner_weight (c : nat) (r s : R) : R :=
  match c with O => (1 - r) * (1 - s) / 4 | 1%nat => (1 + r) * (1 - s) / 4 | 2%nat => (1 + r) * (1 + s) / 4 | _ => (1 - r) * (1 + s) / 4 end.
(* cross product of the two sides meeting at corner c *)
Definition corner_cross (p : nat -> point) (c : nat) : R := cross (pminus (p ((c + 1) mod 4)%nat) (p c)) (pminus (p ((c + 3) mod 4)%nat) (p c)).
(* the corners run counter-clockwise and the quadrilateral is strictly convex *)
Definition convex_ccw (p : nat -> point) : Prop := forall c, (c < 4)%nat -> 0 < corner_cross p c.
