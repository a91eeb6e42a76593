(* CubSpec.v - cubature on the reference triangle. *)
From Coq Require Import ZArith List.
From Verif Require Import JacobiSpec TriSpec.
From Coq Require Import Reals.
Import ListNotations.
Local Open Scope R_scope.

(* A polynomial in the coordinates u = (1+r)/2, v = (1+s)/2, which run over the unit right
   triangle u, v >= 0, u + v <= 1; every polynomial in r and s is one of the same degree. *)
Definition bary (p : poly2) (r s : R) : R := eval2 p ((1 + r) / 2) ((1 + s) / 2).
Definition coefsum (p : poly2) : R := fold_right (fun t acc => Rabs (snd t) + acc) 0 p.

Definition rule_sum (rs ss ws : list R) (f : R -> R -> R) : R :=
  sumn (length ws) (fun i => nth i ws 0 * f (nth i rs 0) (nth i ss 0)).

Definition inside (r s : R) : Prop := -1 < r /\ -1 < s /\ r + s < 0.

(* lit z is the literal z*10^-15 up to a relative error of 2^-53; exact values and values rounded
   to the nearest double are such. *)
Definition literal_values (lit : Z -> R) : Prop :=
  forall z, (Z.abs z <= 2000000000000000)%Z ->
    Rabs (lit z - IZR z / 1000000000000000) <= Rabs (IZR z / 1000000000000000) * / 2 ^ 53.

(* A subtraction with a small error on small arguments; exact subtraction is one. *)
Definition subtracts (sub : R -> R -> R) : Prop :=
  forall a b, Rabs a <= 2 -> Rabs b <= 2 -> Rabs (sub a b - (a - b)) <= / 1000000000.
