(* TriSpec.v - polynomials in two variables, the reference triangle with corners (-1,-1), (1,-1), (-1,1), and what the
   matrices built on it are expected to do. *)
From Coq Require Import ZArith List Reals.
From Verif Require Import Base Loops JacobiSpec.
Import ListNotations.
Local Open Scope R_scope.

(* A polynomial in r and s: a list of terms c r^i s^j. *)
Notation poly2 := (list (nat * nat * R)).
Fixpoint eval2 (p : poly2) (r s : R) : R :=
  match p with [] => 0 | (i, j, c) :: p' => c * r ^ i * s ^ j + eval2 p' r s end.
(* total degree at most N *)
Definition degree2 (N : nat) (p : poly2) : Prop := Forall (fun t => (fst (fst t) + snd (fst t) <= N)%nat) p.

(* partial derivatives of f at (r,s) *)
Definition dr_is (f : R -> R -> R) (r s v : R) : Prop := derivable_pt_lim (fun t => f t s) r v.
Definition ds_is (f : R -> R -> R) (r s v : R) : Prop := derivable_pt_lim (fun t => f r t) s v.

(* Points where the collapsed coordinates are defined: everything but the line s = 1, on which only the corner
   (-1,1) is allowed. The closed triangle satisfies it. *)
Definition in_domain (r s : R) : Prop := s <> 1 \/ r = -1.

(* The integral of f over the triangle is v (first over r from -1 to -s, then over s from -1 to 1). *)
Definition triangle_integral (f : R -> R -> R) (v : R) : Prop :=
  exists I, (forall s, integral_is (fun r => f r s) (-1) (- s) (I s)) /\ integral_is I (-1) 1 v.

(* The modes in the order of the columns: all (i,j) with i+j <= N, by increasing i, then increasing j. *)
Definition modes (N : nat) : list (nat * nat) :=
  flat_map (fun i => map (fun j => (i, j)) (seq 0 (S (N - i)))) (seq 0 (S N)).

(* M maps the values of every polynomial of degree at most N at the points (r,s) to the values g p at the points
   (r',s'). *)
Definition maps_nodal (N : nat) (M : mat R) (r s r' s' : list R) (g : poly2 -> R -> R -> R -> Prop) : Prop :=
  forall p i, degree2 N p -> (i < length r')%nat ->
    g p (nth i r' 0) (nth i s' 0) (sumn (length r) (fun m => ment M i m * eval2 p (nth m r 0) (nth m s 0))).

(* The three edges of the reference triangle, parametrised by t in [-1,1]: s = -1, r + s = 0 and r = -1. *)
Definition edge (f : nat) (t : R) : R * R := match f with O => (t, -1) | 1%nat => (t, - t) | _ => (-1, t) end.
Definition edge_coord (f : nat) (r s : R) : R := match f with 2%nat => s | _ => r end.
(* mask lists N+1 node numbers, all of nodes lying on edge f *)
Definition edge_mask (N : nat) (r s : list R) (f : nat) (mask : list nat) : Prop :=
  length mask = S N /\
  forall m, In m mask -> (m < length r)%nat /\ (nth m r 0, nth m s 0) = edge f (edge_coord f (nth m r 0) (nth m s 0)).
