(* Poisson1DSpec.v - what the operator of the one-dimensional Poisson driver is expected to be: the symmetric interior
   penalty discretisation of u_xx with u = 0 at both ends, on K elements of width w. A field is one polynomial U k per
   element on [-1,1]; D k is the derivative of U k there, so the slope in the interval is 2/w * D k. *)
From Coq Require Import List Arith Reals.
From Verif Require Import Base Loops JacobiSpec Line1DSpec.
Import ListNotations.
Local Open Scope R_scope.

(* a vector of n*K entries, the n values of element k from entry n*k on, holds the values at the nodes r of U *)
Definition holds (n K : nat) (r : list R) (v : list R) (U : nat -> list R) : Prop :=
  length v = (n * K)%nat /\ forall k, (k < K)%nat -> (length (U k) <= n)%nat /\ forall i, (i < n)%nat -> nth (i + k * n) v 0 = peval (U k) (nth i r 0).
Definition slopes (U : nat -> list R) (D : nat -> R -> R) : Prop := forall k x, derivable_pt_lim (peval (U k)) x (D k x).
Definition dot (m : nat) (x y : list R) : R := sumn m (fun g => nth g x 0 * nth g y 0).

(* The single flux at vertex v, 0 <= v <= K: the mean slope less tau times the drop of u; at the ends the drop to the
   mirror image -u. *)
Definition penalty_flux (K : nat) (w tau : R) (U : nat -> list R) (D : nat -> R -> R) (v : nat) : R :=
  match v with
  | O => 2 / w * D 0%nat (-1) + tau * (2 * peval (U 0%nat) (-1))
  | S e => if (v =? K)%nat then 2 / w * D e 1 - tau * (2 * peval (U e) 1)
           else (2 / w * D e 1 + 2 / w * D v (-1)) / 2 - tau * (peval (U e) 1 - peval (U v) (-1))
  end.

(* What vertex v adds to the symmetric interior penalty form of U and V, slopes D and D'. *)
Definition vertex_term (K : nat) (w tau : R) (U V : nat -> list R) (D D' : nat -> R -> R) (v : nat) : R :=
  match v with
  | O => - (2 / w * D 0%nat (-1) * peval (V 0%nat) (-1)) - 2 / w * D' 0%nat (-1) * peval (U 0%nat) (-1) - 2 * tau * (peval (U 0%nat) (-1) * peval (V 0%nat) (-1))
  | S e => if (v =? K)%nat
           then 2 / w * D e 1 * peval (V e) 1 + 2 / w * D' e 1 * peval (U e) 1 - 2 * tau * (peval (U e) 1 * peval (V e) 1)
           else (2 / w * D e 1 + 2 / w * D v (-1)) / 2 * (peval (V e) 1 - peval (V v) (-1)) +
                (2 / w * D' e 1 + 2 / w * D' v (-1)) / 2 * (peval (U e) 1 - peval (U v) (-1)) -
                tau * ((peval (U e) 1 - peval (U v) (-1)) * (peval (V e) 1 - peval (V v) (-1)))
  end.
(* minus the integral of u_x v_x over all elements, plus the vertex terms *)
Definition interior_penalty (K : nat) (w tau : R) (U V : nat -> list R) (D D' : nat -> R -> R) (s : R) : Prop :=
  exists g, (forall k, (k < K)%nat -> integral_is (fun x => D k x * D' k x) (-1) 1 (g k)) /\
  s = - (2 / w) * sumn K g + sumn (S K) (vertex_term K w tau U V D D').
