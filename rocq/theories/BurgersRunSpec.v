(* BurgersRunSpec.v - what is said about a run of the Burgers program. Fields are lists as in AdvecRunSpec.v. *)
From Coq Require Import List Arith Reals.
From Verif Require Import Base Loops JacobiSpec Line1DSpec AdvecRunSpec.
Import ListNotations.
Local Open Scope R_scope.

(* u(x,t) has the derivatives it needs everywhere and u_t + alpha u u_x = nu u_xx *)
Definition solves_burgers (alpha nu : R) (u : R -> R -> R) : Prop :=
  exists ux : R -> R -> R, (forall x t, derivable_pt_lim (fun y => u y t) x (ux x t)) /\
  forall x t, exists ut uxx, derivable_pt_lim (fun s => u x s) t ut /\ derivable_pt_lim (fun y => ux y t) x uxx /\
    ut + alpha * u x t * ux x t = nu * uxx.
(* the travelling wave of speed c, with the hyperbolic tangent of the real numbers *)
Definition wave (alpha nu c x t : R) : R := c / alpha * (1 - tanh (c / (2 * nu) * (x - c * t))).
(* m is the largest absolute value of f at the nodes *)
Definition largest_at (n K : nat) (f : nat -> nat -> R) (m : R) : Prop :=
  (forall i k, (i < n)%nat -> (k < K)%nat -> Rabs (f i k) <= m) /\ exists i k, (i < n)%nat /\ (k < K)%nat /\ m = Rabs (f i k).
(* What flows in at the left end and out at the right end for the field l with the boundary values uL and uR: half the square of the
   boundary value, less the viscous flux of the element, plus M times the drop of u, M the largest absolute value in the field.
   U and q are one polynomial per element, U through the values of l, q the slope times sqrt(nu) in the weak sense. *)
Definition end_flows (n K : nat) (w : R) (r : list R) (uL uR nu : R) (l : list R) (fin fout : R) : Prop :=
  exists M U q, largest_at n K (value K l) M /\
  (forall k, (k < K)%nat -> (length (U k) <= n)%nat /\ (length (q k) <= n)%nat /\ forall i, (i < n)%nat -> value K l i k = peval (U k) (nth i r 0)) /\
  weak_form n K w (sqrt nu) U q
    (fun k => - (sqrt nu * (trace_mean K uL uR U k - peval (U k) (-1)))) (fun k => sqrt nu * (trace_mean K uL uR U (S k) - peval (U k) 1)) /\
  fin = uL ^ 2 / 2 - sqrt nu * peval (q 0%nat) (-1) + M * (uL - peval (U 0%nat) (-1)) /\
  fout = uR ^ 2 / 2 - sqrt nu * peval (q (K - 1)%nat) 1 + M * (peval (U (K - 1)%nat) 1 - uR).
