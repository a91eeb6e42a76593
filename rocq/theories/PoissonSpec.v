(* PoissonSpec.v - the symmetric interior penalty form of the Laplacian on a triangle mesh, and the matrices that
   represent a form. *)
From Coq Require Import ZArith List Reals.
From Verif Require Import Base Loops JacobiSpec CscModel CscSpec MeshSpec TriSpec TriGeoSpec TriDGSpec SwSpec.
Import ListNotations.
Local Open Scope R_scope.

(* entry (i,j) of a sparse matrix: the sum of the values stored there; and v^T a u for square a *)
Definition entry_of (a : csc R) (i j : nat) : R := value 0 Rplus (entries a) i j.
Definition quadratic (n : nat) (a : csc R) (v u : nat -> R) : R := sumn n (fun i => sumn n (fun j => v i * entry_of a i j * u j)).

(* A function given separately on each element, with its gradient. *)
Record piecewise := Piecewise { val : nat -> R -> R -> R; ddx : nat -> R -> R -> R; ddy : nat -> R -> R -> R }.
Definition val_at (U : piecewise) (k : nat) (P : point) : R := val U k (fst P) (snd P).
(* derivative in direction n *)
Definition along (n : point) (U : piecewise) (k : nat) (P : point) : R := fst n * ddx U k (fst P) (snd P) + snd n * ddy U k (fst P) (snd P).
(* U is the piecewise polynomial of degree N that has, at node i of element k, the value numbered Np*k+i in u *)
Definition represents (N Np K : nat) (x y : mat R) (u : nat -> R) (U : piecewise) : Prop :=
  forall k, (k < K)%nat ->
  (exists p, degree2 N p /\ forall X Y, val U k X Y = eval2 p X Y) /\
  (forall X Y, dr_is (val U k) X Y (ddx U k X Y)) /\ (forall X Y, ds_is (val U k) X Y (ddy U k X Y)) /\
  forall i, (i < Np)%nat -> val_at U k (node_at x y i k) = u (Np * k + i)%nat.

Section Form.
Variables (N K : nat) (Vert : list R) (EToV : list nat) (bcType : list Z).
Local Notation tag := (tag_of bcType).
(* tags of include/BCtypes.hpp: 6 Dirichlet; 3 Wall and 7 Neumann, both natural; every other side is treated as interior *)
Definition dirichlet (k f : nat) : Prop := tag k f = 6%Z.
Definition natural (k f : nat) : Prop := tag k f = 3%Z \/ tag k f = 7%Z.
Definition interior (k f : nat) : Prop := ~ dirichlet k f /\ ~ natural k f.

(* (k2,f2) is the side on the other side of side f of element k; a side of one element only faces itself *)
Definition across (k f k2 f2 : nat) : Prop :=
  (k2 < K)%nat /\ (f2 < 3)%nat /\
  (joined EToV k f k2 f2 \/ (k2 = k /\ f2 = f /\ forall h, ~ shares 3 (map Z.of_nat EToV) (3 * k + f) h)).
(* side length over area; the penalty of a side *)
Definition inverse_height (k f : nat) : R := side_length (from_ Vert EToV k f) (to_ Vert EToV k f) / area (corner Vert EToV k 0) (corner Vert EToV k 1) (corner Vert EToV k 2).
Definition tau (k f k2 f2 : nat) : R := 20000 * (INR N + 1) * (INR N + 1) * Rmax (inverse_height k f) (inverse_height k2 f2).

(* What side f of element k, with outward normal n, contributes to the form of U and V, as a density along the side. *)
Definition dirichlet_density (k f k2 f2 : nat) (n : point) (U V : piecewise) (P : point) : R :=
  tau k f k2 f2 * (val_at U k P * val_at V k P) - along n U k P * val_at V k P - along n V k P * val_at U k P.
Definition jump (U : piecewise) (k k2 : nat) (P : point) : R := val_at U k P - val_at U k2 P.
Definition mean (n : point) (U : piecewise) (k k2 : nat) (P : point) : R := (along n U k P + along n U k2 P) / 2.
(* half, as the side is met again from the neighbour *)
Definition interior_density (k f k2 f2 : nat) (n : point) (U V : piecewise) (P : point) : R :=
  / 2 * (tau k f k2 f2 / 2 * (jump U k k2 P * jump V k k2 P) - mean n U k k2 P * jump V k k2 P - mean n V k k2 P * jump U k k2 P).
(* what a side adds that meets only test functions of element k *)
Definition one_sided_density (k f k2 f2 : nat) (n : point) (U V : piecewise) (P : point) : R :=
  / 2 * (tau k f k2 f2 * jump U k k2 P * val_at V k P - 2 * mean n U k k2 P * val_at V k P - along n V k P * jump U k k2 P).

Definition sides (inner : nat -> nat -> nat -> nat -> point -> piecewise -> piecewise -> point -> R) (k f : nat) (U V : piecewise) (w : R) : Prop :=
  exists k2 f2 n, across k f k2 f2 /\ normal_of Vert EToV k f n /\
  let put := fun g => side_integral (from_ Vert EToV k f) (to_ Vert EToV k f) (fun t => g (side_point (from_ Vert EToV k f) (to_ Vert EToV k f) t)) w in
  (dirichlet k f -> put (dirichlet_density k f k2 f2 n U V)) /\
  (natural k f -> w = 0) /\
  (interior k f -> put (inner k f k2 f2 n U V)).

(* the value at (U,V) of
     sum over elements of the integral of grad U . grad V  +  sum over sides of the integrals of the densities *)
Definition form (inner : nat -> nat -> nat -> nat -> point -> piecewise -> piecewise -> point -> R) (U V : piecewise) (v : R) : Prop :=
  exists (vol : nat -> R) (sd : nat -> nat -> R),
    (forall k, (k < K)%nat -> element_integral (corner Vert EToV k 0) (corner Vert EToV k 1) (corner Vert EToV k 2)
                               (fun x y => ddx U k x y * ddx V k x y + ddy U k x y * ddy V k x y) (vol k)) /\
    (forall k f, (k < K)%nat -> (f < 3)%nat -> sides inner k f U V (sd k f)) /\
    v = sumn K (fun k => vol k + (sd k 0%nat + sd k 1%nat + sd k 2%nat)).

(* the symmetric interior penalty form, and the form whose interior sides meet the test functions one side at a time *)
Definition penalty_form : piecewise -> piecewise -> R -> Prop := form interior_density.
Definition one_sided_form : piecewise -> piecewise -> R -> Prop := form one_sided_density.

(* the volume part alone *)
Definition stiffness_form (U V : piecewise) (v : R) : Prop :=
  exists vol : nat -> R,
    (forall k, (k < K)%nat -> element_integral (corner Vert EToV k 0) (corner Vert EToV k 1) (corner Vert EToV k 2)
                               (fun x y => ddx U k x y * ddx V k x y + ddy U k x y * ddy V k x y) (vol k)) /\
    v = sumn K vol.

(* the product of U and V, integrated *)
Definition mass_form (U V : piecewise) (v : R) : Prop :=
  exists vol : nat -> R,
    (forall k, (k < K)%nat -> element_integral (corner Vert EToV k 0) (corner Vert EToV k 1) (corner Vert EToV k 2)
                               (fun x y => val U k x y * val V k x y) (vol k)) /\
    v = sumn K vol.

(* a boundary table that carries a condition on every boundary side, and treats the two sides of a shared side alike *)
Definition consistent_tags : Prop :=
  forall k f, (k < K)%nat -> (f < 3)%nat -> interior k f ->
  exists k2 f2, (k2 < K)%nat /\ (f2 < 3)%nat /\ joined EToV k f k2 f2 /\ interior k2 f2.
End Form.
