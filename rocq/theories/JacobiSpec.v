(* JacobiSpec.v - what the Jacobi properties say, independent of how the code computes them. *)
From Coq Require Import Reals List.
Import ListNotations.
Local Open Scope R_scope.

(* The only facts about the gamma function that are used: its functional equation and positivity. *)
Definition gamma_like (G : R -> R) : Prop :=
  (forall x, x <> 0 -> -1 < x -> G (x + 1) = x * G x) /\ (forall x, 0 < x -> 0 < G x) /\ G 1 = 1.

(* Legendre polynomials by Bonnet's recurrence. *)
Fixpoint legendre2 (n : nat) (x : R) : R * R :=           (* (L_n, L_{n+1}) *)
  match n with
  | O => (1, x)
  | S m => let (a, b) := legendre2 m x in
           (b, ((2 * INR m + 3) * x * b - (INR m + 1) * a) / (INR m + 2))
  end.
Definition legendre (n : nat) (x : R) : R := fst (legendre2 n x).

(* F is an antiderivative of f on the whole line and the integral over [a,b] is v. *)
Definition integral_is (f : R -> R) (a b v : R) : Prop :=
  exists F, (forall x, derivable_pt_lim F x (f x)) /\ F b - F a = v.

Definition sumn (n : nat) (f : nat -> R) : R := fold_right Rplus 0 (map f (seq 0 n)).

(* The Jacobi weight function for natural exponents. *)
Definition weight (a b : nat) (x : R) : R := (1 - x) ^ a * (1 + x) ^ b.

(* What a symmetric eigenvalue solver returns for the n x n matrix J: the eigenvalues in increasing order and
   an orthogonal matrix V whose column j is an eigenvector for eigenvalue j. *)
Definition eigen_solution (n : nat) (J : nat -> nat -> R) (xs : list R) (V : nat -> nat -> R) : Prop :=
  length xs = n /\
  (forall i j, (i < n)%nat -> (j < n)%nat -> sumn n (fun k => J i k * V k j) = nth j xs 0 * V i j) /\
  (forall a b, (a < n)%nat -> (b < n)%nat -> sumn n (fun j => V a j * V b j) = if Nat.eqb a b then 1 else 0) /\
  (forall a b, (a < n)%nat -> (b < n)%nat -> sumn n (fun i => V i a * V i b) = if Nat.eqb a b then 1 else 0) /\
  (forall j, (S j < n)%nat -> nth j xs 0 <= nth (S j) xs 0).
(* The value at x of the polynomial with coefficients cs, lowest first. *)
Fixpoint peval (cs : list R) (x : R) : R := match cs with [] => 0 | c :: cs' => c + x * peval cs' x end.

(* The quadrature rule with points xs and weights ws applied to f. *)
Definition quadrature (xs ws : list R) (f : R -> R) : R :=
  fold_right Rplus 0 (map (fun '(x, w) => w * f x) (combine xs ws)).
