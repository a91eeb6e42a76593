(* TriDGSpec.v - integrals over a straight-sided triangle and its sides, and the discontinuous Galerkin balance of a
   conservation law on one element. *)
From Coq Require Import ZArith List Reals.
From Verif Require Import Base Loops JacobiSpec TriSpec TriGeoSpec.
Import ListNotations.
Local Open Scope R_scope.

(* f at the image of the reference point (r,s) *)
Definition pulled (a b c : point) (f : R -> R -> R) (r s : R) : R :=
  f (fst (affine_image a b c r s)) (snd (affine_image a b c r s)).
(* The integral of f over the triangle a b c: the reference triangle has area 2. *)
Definition element_integral (a b c : point) (f : R -> R -> R) (v : R) : Prop :=
  exists i, triangle_integral (pulled a b c f) i /\ v = area a b c / 2 * i.
(* The side from p (t = -1) to q (t = 1), and the integral along it of a function of t. *)
Definition side_point (p q : point) (t : R) : point := (fst p + (1 + t) / 2 * (fst q - fst p), snd p + (1 + t) / 2 * (snd q - snd p)).
Definition side_integral (p q : point) (g : R -> R) (v : R) : Prop :=
  exists i, integral_is g (-1) 1 i /\ v = side_length p q / 2 * i.
Definition at_point (W : poly2) (p : point) : R := eval2 W (fst p) (snd p).

(* Z is the rate of change given by the flux (F, G) inside the triangle a b c and the fluxes S0, S1, S2 (functions of
   the side parameter) out through its sides ab, bc, ca: against every test polynomial W of degree at most N,
     integral Z W = integral (F, G) . grad W - sum of the integrals over the sides of S W. *)
Definition dg_balance (N : nat) (a b c : point) (Z F G : poly2) (S0 S1 S2 : list R) : Prop :=
  forall W Wx Wy, degree2 N W ->
  (forall x y, dr_is (eval2 W) x y (Wx x y)) -> (forall x y, ds_is (eval2 W) x y (Wy x y)) ->
  exists vz vf v0 v1 v2,
    element_integral a b c (fun x y => eval2 Z x y * eval2 W x y) vz /\
    element_integral a b c (fun x y => eval2 F x y * Wx x y + eval2 G x y * Wy x y) vf /\
    side_integral a b (fun t => peval S0 t * at_point W (side_point a b t)) v0 /\
    side_integral b c (fun t => peval S1 t * at_point W (side_point b c t)) v1 /\
    side_integral c a (fun t => peval S2 t * at_point W (side_point c a t)) v2 /\
    vz = vf - (v0 + v1 + v2).
