(* SplitSpec.v - the pieces a reference element is cut into. Lattice point (m, n) is m steps along r and n along s. *)
From Coq Require Import List Reals.
Import ListNotations.
Local Open Scope nat_scope.

(* The small triangles of the lattice m + n <= N, each traversed counter-clockwise. *)
Definition sub_triangle (N : nat) (t : list (nat * nat)) : Prop := exists m n,
  (m + n < N /\ t = [(m, n); (m + 1, n); (m, n + 1)]) \/
  (m + n + 2 <= N /\ t = [(m + 1, n); (m + 1, n + 1); (m, n + 1)]).
(* The small squares of the lattice m <= N, n <= N: bottom edge, then top edge, both left to right. *)
Definition sub_square (N : nat) (t : list (nat * nat)) : Prop := exists m n,
  m < N /\ n < N /\ t = [(m, n); (m + 1, n); (m, n + 1); (m + 1, n + 1)].

Local Open Scope R_scope.
(* Reference coordinates of a lattice point. *)
Definition place (N : nat) (p : nat * nat) : R * R := (-1 + 2 * INR (fst p) / INR N, -1 + 2 * INR (snd p) / INR N).
(* Twice the signed area of a closed polygon. *)
Fixpoint shoelace_from (a : R * R) (l : list (R * R)) : R :=
  match l with
  | [] => 0
  | p :: t => match t with [] => fst p * snd a - fst a * snd p | q :: _ => fst p * snd q - fst q * snd p + shoelace_from a t end
  end.
Definition shoelace (l : list (R * R)) : R := match l with [] => 0 | a :: _ => shoelace_from a l end.
(* Positive when p lies to the left of the directed line from a to b. *)
Definition side (a b p : R * R) : R := (fst b - fst a) * (snd p - snd a) - (snd b - snd a) * (fst p - fst a).
Definition in_triangle (a b c p : R * R) : Prop := 0 <= side a b p /\ 0 <= side b c p /\ 0 <= side c a p.
Definition inside_triangle (a b c p : R * R) : Prop := 0 < side a b p /\ 0 < side b c p /\ 0 < side c a p.
