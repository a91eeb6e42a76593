(* AdvecRunSpec.v - what is said about a run of the advection driver. A field is the list of its entries, node i of element k at
   place i*K + k. *)
From Coq Require Import List Arith Reals.
From Verif Require Import Base Loops JacobiSpec Line1DSpec.
Import ListNotations.
Local Open Scope R_scope.

Definition value (K : nat) (l : list R) (i k : nat) : R := nth (i * K + k) l 0.
(* from element j on the field has the values of the function f at the nodes *)
Definition follows (n K : nat) (x : mat R) (l : list R) (j : nat) (f : R -> R) : Prop :=
  forall i k, (i < n)%nat -> (j <= k < K)%nat -> value K l i k = f (ment x i k).
(* two fields have the same values on the elements from j to k *)
Definition same_on (n K : nat) (l l' : list R) (j k : nat) : Prop :=
  forall i e, (i < n)%nat -> (j <= e <= k)%nat -> value K l i e = value K l' i e.
(* D q is the q-th derivative of D 0 *)
Definition derivatives (D : nat -> R -> R) : Prop := forall q x, derivable_pt_lim (D q) x (D (S q) x).
(* the integral of the field over all elements, of width w, of the polynomials through the values at the nodes r *)
Definition total (n K : nat) (w : R) (r : list R) (l : list R) (m : R) : Prop :=
  exists U I, (forall k, (k < K)%nat -> (length (U k) <= n)%nat /\ (forall i, (i < n)%nat -> value K l i k = peval (U k) (nth i r 0)) /\
                integral_is (fun s => w / 2 * peval (U k) s) (-1) 1 (I k)) /\
    m = sumn K I.
