(* PeriodicSpec.v - when two nodes of an open boundary belong together across a periodic domain. *)
From Coq Require Import List Reals.
Import ListNotations.
Local Open Scope R_scope.

(* b, one of the nodes vmapO, lies opposite of a: at the same height (within 1e-3), more than 1000 away *)
Definition partner (vmapO : list nat) (x y : list R) (a b : nat) : Prop :=
  In b vmapO /\ Rabs (nth b y 0 - nth a y 0) < 1 / 1000 /\ Rabs (nth b x 0 - nth a x 0) > 1000.

(* P is the map vmapP with the entries of the face nodes in vmapO replaced by partners *)
Definition redirected (vmapM vmapP vmapO : list nat) (x y : list R) (P : list nat) : Prop :=
  length P = length vmapP /\
  forall i, (i < length vmapP)%nat ->
    ((i < length vmapM)%nat /\ In (nth i vmapM 0%nat) vmapO -> partner vmapO x y (nth i vmapM 0%nat) (nth i P 0%nat)) /\
    (~ ((i < length vmapM)%nat /\ In (nth i vmapM 0%nat) vmapO) -> nth i P 0%nat = nth i vmapP 0%nat).

(* The two lines the drivers take for the open boundary. A side from height x1 to x2 lies on one of them. *)
Definition on_line (x1 x2 : R) : Prop := (x1 = 0 /\ x2 = 0) \/ (x1 = 8000 /\ x2 = 8000).

(* m lists the entries of l with the property Q, in order *)
Inductive picks (Q : nat -> Prop) : list nat -> list nat -> Prop :=
| picks_nil : picks Q [] []
| picks_yes a l m : Q a -> picks Q l m -> picks Q (a :: l) (a :: m)
| picks_no a l m : ~ Q a -> picks Q l m -> picks Q (a :: l) m.

(* The choice between several partners l of the j-th of n nodes: the first one if its number differs by at most one from that of
   the first partner of the node before or after in the list, otherwise the second. At the two ends of the list there is one
   such neighbour, which must have a single partner. *)
Definition near (a b : nat) : Prop := (a <= S b /\ b <= S a)%nat.
Definition chosen (n j : nat) (before l after : list nat) (p : nat) : Prop :=
  match l with
  | [] => False
  | [a] => p = a
  | a :: b :: _ =>
    if Nat.eqb j 0 then exists c, after = [c] /\ (near c a -> p = a) /\ (~ near c a -> p = b)
    else if Nat.eqb j (n - 1) then exists c, before = [c] /\ (near c a -> p = a) /\ (~ near c a -> p = b)
    else exists c c', head before = Some c /\ head after = Some c' /\ (near c a \/ near c' a -> p = a) /\ (~ (near c a \/ near c' a) -> p = b)
  end.
