(* InsSpec.v - what src/ins2d/main.cpp is about: a stratified fluid with density rho and velocity (u, v), the fluxes of its
   three components, and the Rusanov flux between two states. A state is a cell (rho, u, v), a field three matrices
   (SwSpec.v). *)
From Coq Require Import ZArith List Reals.
From Verif Require Import Base Loops TriSpec TriGeoSpec SwSpec.
Import ListNotations.
Local Open Scope R_scope.

Definition density (q : cell) : R := part 0 q.
Definition velocity (q : cell) : point := (part 1 q, part 2 q).
Definition flow_speed (q : cell) : R := sqrt (part 1 q * part 1 q + part 2 q * part 2 q).
(* rho (u, v), u (u, v), v (u, v) *)
Definition carried (c : nat) (q : cell) : R := part c q.
Definition ins_through (c : nat) (n : point) (q : cell) : R := carried c q * (part 1 q * fst n + part 2 q * snd n).
Definition ins_rusanov (c : nat) (n : point) (lam : R) (a b : cell) : R :=
  (ins_through c n a + ins_through c n b) / 2 + lam / 2 * (part c a - part c b).

(* The rates of change of rho, u and v by
     rho_t = - u rho_x - v rho_y,   u_t = - e_x - v w,   v_t = - e_y + u w - g rho
   with e = (u^2 + v^2) / 2 and w the vorticity. There is no pressure in them. *)
Definition advective (g : R) (c : nat) (q : cell) (grad_rho grad_e : point) (w : R) : R :=
  let '(rho, u, v) := q in
  match c with
  | O => - u * fst grad_rho - v * snd grad_rho
  | S O => - fst grad_e - v * w
  | _ => - snd grad_e + u * w - g * rho
  end.
Definition energy (q : cell) : R := (part 1 q * part 1 q + part 2 q * part 2 q) / 2.
(* the state at entry i of a table of volume nodes (node v is node v mod Np of element v / Np) *)
Definition state_at (Np : nat) (q : field) (table : list nat) (i : nat) : cell :=
  let v := nth i table 0%nat in at_node q (v mod Np) (v / Np).

(* the smallest of finitely many values *)
Definition is_least (P : R -> Prop) (m : R) : Prop := P m /\ forall v, P v -> m <= v.
(* every node of the field carries the state c *)
Definition uniform (Np K : nat) (q : field) (c : cell) : Prop := forall i k, (i < Np)%nat -> (k < K)%nat -> at_node q i k = c.
(* equal states at nodes with the same coordinates *)
Definition continuous_field (Np K : nat) (x y : mat R) (q : field) : Prop :=
  forall i k i2 k2, (i < Np)%nat -> (k < K)%nat -> (i2 < Np)%nat -> (k2 < K)%nat ->
    (ment x i k, ment y i k) = (ment x i2 k2, ment y i2 k2) -> at_node q i k = at_node q i2 k2.
