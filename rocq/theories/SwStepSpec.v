(* SwStepSpec.v - what the shallow water time loops should do: volume of water, a filter as a matrix product, the time
   a run has really advanced. *)
From Coq Require Import List Reals.
From Verif Require Import Loops JacobiSpec TriSpec TriGeoSpec TriDGSpec SwSpec.
Local Open Scope R_scope.

(* v is the volume of water under the depth with nodal values h (columns are elements) *)
Definition volume_is (N Np K : nat) (Vert : list R) (EToV : list nat) (X Y h : mat R) (v : R) : Prop :=
  exists (Z : nat -> poly2) (w : nat -> R),
    (forall k, (k < K)%nat -> interpolant N Np X Y h k (Z k) /\
       element_integral (TriGeoSpec.corner Vert EToV k 0) (TriGeoSpec.corner Vert EToV k 1) (TriGeoSpec.corner Vert EToV k 2) (eval2 (Z k)) (w k)) /\
    v = sumn K w.
(* Y = F X *)
Definition filtered (Np K : nat) (F X Y : mat R) : Prop :=
  forall i j, (i < Np)%nat -> (j < K)%nat -> ment Y i j = sumn Np (fun k => ment F i k * ment X k j).
(* s 0, s 1, ..., s n are successive states of the step function *)
Definition history {S O : Type} (ok : S -> O) (step : S -> O) (n : nat) (s : nat -> S) : Prop :=
  forall i, (i < n)%nat -> step (s i) = ok (s (Datatypes.S i)).
(* dt satisfies the CFL condition with number CFL, and no longer step does: for a side of length L of an element of area
   a the crossing rate of the waves is L / a times their speed, and the condition is dt (N+1)^2 / 2 L / a speed <= CFL at
   every node on every side. *)
Section Cfl.
Variables (N Np K : nat) (Vert : list R) (EToV : list nat) (X Y : mat R) (g : R) (q : field).
Definition crossing_rate (v : R) : Prop :=
  exists k f i t, (k < K)%nat /\ (f < 3)%nat /\ (i < Np)%nat /\ node_at X Y i k = side_point (from_ Vert EToV k f) (to_ Vert EToV k f) t /\
    v = side_length (from_ Vert EToV k f) (to_ Vert EToV k f) / area (TriGeoSpec.corner Vert EToV k 0) (TriGeoSpec.corner Vert EToV k 1) (TriGeoSpec.corner Vert EToV k 2) * wave_speed g (at_node q i k).
Definition largest_step (CFL dt : R) : Prop :=
  0 < dt /\ (forall v, crossing_rate v -> dt * ((INR N + 1) ^ 2 / 2 * v) <= CFL) /\ exists v, crossing_rate v /\ dt * ((INR N + 1) ^ 2 / 2 * v) = CFL.
End Cfl.
(* w = q + c z, entry by entry *)
Definition sum_of (Np K : nat) (c : R) (q z w : field) : Prop :=
  forall m i k, (m < 3)%nat -> (i < Np)%nat -> (k < K)%nat -> ment (fieldc m w) i k = ment (fieldc m q) i k + c * ment (fieldc m z) i k.
