(* Line1DSpec.v - what the right-hand sides of the one-dimensional drivers are expected to be: discontinuous
   Galerkin weak forms on K elements of width w, each mapped to [-1,1]. A field is one polynomial per element. *)
From Coq Require Import List Arith Reals.
From Verif Require Import Base Loops JacobiSpec.
Import ListNotations.
Local Open Scope R_scope.

(* Column k of m holds the values at the n nodes r of the polynomial with coefficients cs, of degree below n. *)
Definition interpolates (n : nat) (r : list R) (m : mat R) (k : nat) (cs : list R) : Prop :=
  (length cs <= n)%nat /\ forall i, (i < n)%nat -> ment m i k = peval cs (nth i r 0).

(* The rate polynomials Q (per element, of degree below n) solve the weak form of q_t = s * F_x with the given
   face terms: for every test polynomial p of degree below n, integrated over the element,
       w/2 * Q_k * p - s * F_k' * p    gives    p(-1) * gl k + p(1) * gr k. *)
Definition weak_form (n K : nat) (w s : R) (F Q : nat -> list R) (gl gr : nat -> R) : Prop :=
  forall k, (k < K)%nat -> forall dF, (forall x, derivable_pt_lim (peval (F k)) x (dF x)) ->
  forall p, (length p <= n)%nat ->
    integral_is (fun x => w / 2 * peval (Q k) x * peval p x - s * dF x * peval p x) (-1) 1
                (peval p (-1) * gl k + peval p 1 * gr k).

(* --- advection: u_t + c u_x = 0, nothing enters at the left end, the right end is free --- *)
(* the value met at the left, right end of element k *)
Definition from_left (U : nat -> list R) (k : nat) : R := match k with O => 0 | S k => peval (U k) 1 end.
Definition from_right (K : nat) (U : nat -> list R) (k : nat) : R := if (S k =? K)%nat then peval (U k) 1 else peval (U (S k)) (-1).

(* --- viscous Burgers: u_t + (u^2/2 - sqrt(nu) q)_x = 0, q = sqrt(nu) u_x --- *)
(* The single value of u at mesh vertex v, 0 <= v <= K: given at the two ends, else the mean. *)
Definition trace_mean (K : nat) (uL uR : R) (U : nat -> list R) (v : nat) : R :=
  match v with O => uL | S e => if (v =? K)%nat then uR else (peval (U e) 1 + peval (U v) (-1)) / 2 end.
(* The single flux at vertex v: the mean of the fluxes F of the two elements plus M/2 times the drop of u; at
   the ends the convective part of the given value, the viscous part of the element, and M times the drop. *)
Definition lax_friedrichs (K : nat) (uL uR sn M : R) (U q F : nat -> list R) (v : nat) : R :=
  match v with
  | O => uL * uL / 2 - sn * peval (q 0%nat) (-1) + M * (uL - peval (U 0%nat) (-1))
  | S e => if (v =? K)%nat then uR * uR / 2 - sn * peval (q e) 1 + M * (peval (U e) 1 - uR)
           else (peval (F e) 1 + peval (F v) (-1)) / 2 + M / 2 * (peval (U e) 1 - peval (U v) (-1))
  end.
(* M is the largest absolute value in the first n rows and K columns *)
Definition largest_abs (n K : nat) (u : mat R) (M : R) : Prop :=
  (forall i k, (i < n)%nat -> (k < K)%nat -> Rabs (ment u i k) <= M) /\
  exists i k, (i < n)%nat /\ (k < K)%nat /\ M = Rabs (ment u i k).
