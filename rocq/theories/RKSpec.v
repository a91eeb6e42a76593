(* RKSpec.v - explicit Runge-Kutta methods. *)
From Coq Require Import List Reals.
From Verif Require Import Base JacobiSpec.
Import ListNotations.
Local Open Scope R_scope.

(* u + dt * sum_{j<s} c j * k_j, entry by entry *)
Definition shifted (u : list R) (dt : R) (s : nat) (c : nat -> R) (k : nat -> list R) : list R :=
  map (fun m => nth m u 0 + dt * sumn s (fun j => c j * nth m (k j) 0)) (seq 0 (length u)).

(* u' is obtained from u by one step of the explicit method with s stages, matrix A and weights B:
   k_i = f (u + dt sum_{j<i} A i j k_j), u' = u + dt sum_{j<s} B j k_j. *)
Definition explicit_rk_step (s : nat) (A : nat -> nat -> R) (B : nat -> R) (f : list R -> outcome (list R)) (dt : R) (u u' : list R) : Prop :=
  exists k : nat -> list R,
    (forall i, (i < s)%nat -> f (shifted u dt i (A i) k) = Ok (k i)) /\ u' = shifted u dt s B k.

(* The eight conditions for order four, each met up to eps. *)
Section Order.
Variables (s : nat) (A : nat -> nat -> R) (B : nat -> R) (eps : R).
Definition abscissa (i : nat) : R := sumn i (A i).
Definition near (x y : R) : Prop := Rabs (x - y) <= eps.
Definition order4 : Prop :=
  near (sumn s B) 1 /\
  near (sumn s (fun i => B i * abscissa i)) (1 / 2) /\
  near (sumn s (fun i => B i * abscissa i ^ 2)) (1 / 3) /\
  near (sumn s (fun i => B i * sumn i (fun j => A i j * abscissa j))) (1 / 6) /\
  near (sumn s (fun i => B i * abscissa i ^ 3)) (1 / 4) /\
  near (sumn s (fun i => B i * abscissa i * sumn i (fun j => A i j * abscissa j))) (1 / 8) /\
  near (sumn s (fun i => B i * sumn i (fun j => A i j * abscissa j ^ 2))) (1 / 12) /\
  near (sumn s (fun i => B i * sumn i (fun j => A i j * sumn j (fun l => A j l * abscissa l)))) (1 / 24).
End Order.
