(* PoissonEnergySpec.v - the energy of a piecewise polynomial and connected meshes. *)
From Coq Require Import ZArith List Reals.
From Verif Require Import Base Loops JacobiSpec MeshSpec TriSpec TriGeoSpec TriDGSpec SwSpec PoissonSpec.
Import ListNotations.
Local Open Scope R_scope.

Section Energy.
Variables (N K : nat) (Vert : list R) (EToV : list nat) (bcType : list Z).
(* what side f of element k adds: the penalised square of the values on a Dirichlet side and, half from each of its two
   elements, of the jump on an interior side *)
Definition side_energy (k f : nat) (U : piecewise) (w : R) : Prop :=
  exists k2 f2, across K EToV k f k2 f2 /\
  let put := fun g => side_integral (from_ Vert EToV k f) (to_ Vert EToV k f) (fun t => g (side_point (from_ Vert EToV k f) (to_ Vert EToV k f) t)) w in
  (dirichlet bcType k f -> put (fun P => tau N Vert EToV k f k2 f2 * (val_at U k P * val_at U k P))) /\
  (natural bcType k f -> w = 0) /\
  (interior bcType k f -> put (fun P => tau N Vert EToV k f k2 f2 / 4 * (jump U k k2 P * jump U k k2 P))).
Definition energy (U : piecewise) (e : R) : Prop :=
  exists (vol : nat -> R) (sd : nat -> nat -> R),
    (forall k, (k < K)%nat -> element_integral (corner Vert EToV k 0) (corner Vert EToV k 1) (corner Vert EToV k 2)
                               (fun x y => ddx U k x y * ddx U k x y + ddy U k x y * ddy U k x y) (vol k)) /\
    (forall k f, (k < K)%nat -> (f < 3)%nat -> side_energy k f U (sd k f)) /\
    e = sumn K (fun k => vol k + (sd k 0%nat + sd k 1%nat + sd k 2%nat)).
(* elements joined by a chain of interior sides *)
Inductive linked : nat -> nat -> Prop :=
| linked_refl k : linked k k
| linked_step k f k2 f2 k3 : (k < K)%nat -> (f < 3)%nat -> (f2 < 3)%nat -> joined EToV k f k2 f2 -> interior bcType k f -> linked k2 k3 -> linked k k3.
Definition connected : Prop := forall k k', (k < K)%nat -> (k' < K)%nat -> linked k k'.
End Energy.
