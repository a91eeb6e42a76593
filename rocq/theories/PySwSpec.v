(* PySwSpec.v - the discontinuous Galerkin scheme for a tracer carried by shallow water. *)
From Coq Require Import ZArith List Reals.
From Verif Require Import Base Loops JacobiSpec TriSpec MeshSpec TriGeoSpec TriDGSpec SwSpec CurvedSwModel CurvedSwSpec.
Import ListNotations.
Local Open Scope R_scope.

(* the water alone; and the tracer seen as a substance of "depth" hN with the discharges hN u, hN v *)
Definition water (q : four (mat R)) : field := (q_h q, q_hu q, q_hv q).
Definition tracer (Np K : nat) (q : four (mat R)) : field :=
  (q_hN q, mkmat Np K (fun i k => ment (q_hN q) i k * (ment (q_hu q) i k / ment (q_h q) i k)), mkmat Np K (fun i k => ment (q_hN q) i k * (ment (q_hv q) i k / ment (q_h q) i k))).

(* z is the rate of change of the amount of tracer: on every element it balances the polynomial interpolants of hN u and
   hN v and the fluxes through the three sides. A side flux is the polynomial with the Rusanov values of the tracer at the
   side's nodes; the dissipation is the one speed_of gives for the side. *)
Definition tracer_scheme (N Np K : nat) (Vert : list R) (EToV : list nat) (x y : mat R) (q : four (mat R))
  (beyond : nat -> nat -> option (nat -> point -> cell -> cell)) (speed_of : nat -> nat -> R -> Prop) (z : mat R) : Prop :=
  forall k, (k < K)%nat -> exists Z F G S0 S1 S2, let t := tracer Np K q in
    interpolant N Np x y z k Z /\ interpolant N Np x y (fieldc 1 t) k F /\ interpolant N Np x y (fieldc 2 t) k G /\
    let flux f := side_flux N Np K Vert EToV x y 0 t beyond speed_of k f 0 in flux 0%nat S0 /\ flux 1%nat S1 /\ flux 2%nat S2 /\
    dg_balance N (corner Vert EToV k 0) (corner Vert EToV k 1) (corner Vert EToV k 2) Z F G S0 S1 S2.
