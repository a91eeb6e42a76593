(* DeformSpec.v - what meshhelpers/curved.py is expected to do, in exact arithmetic: points, samples of a curve, nearest
   samples, and the blended deformation of a triangle. *)
From Coq Require Import List Reals Arith.
From Verif Require Import Base Loops JacobiSpec.
Import ListNotations.
Local Open Scope R_scope.

Definition point := (R * R)%type.
Definition apart (p q : point) : R := sqrt ((fst p - fst q) * (fst p - fst q) + (snd p - snd q) * (snd p - snd q)).
(* the first two entries of a row of the vertex table *)
Definition place (row : list R) : point := (nth 0 row 0, nth 1 row 0).
Definition sample (xS yS : list R) (i : nat) : point := (nth i xS 0, nth i yS 0).

(* sample i is the nearest to p, and the first such *)
Definition nearest_sample (xS yS : list R) (p : point) (i : nat) : Prop :=
  (i < length xS)%nat /\ forall j, (j < length xS)%nat ->
    apart (sample xS yS i) p <= apart (sample xS yS j) p /\ ((j < i)%nat -> apart (sample xS yS i) p < apart (sample xS yS j) p).
Definition close_to_curve (xS yS : list R) (p : point) : Prop := exists i, (i < length xS)%nat /\ apart (sample xS yS i) p <= 200.

(* the vertices at the ends of face f of a triangle e, f < 3 *)
Definition is_end (EToV : list (list nat)) (e : nat * nat) (v : nat) : Prop :=
  v = nth (snd e) (nth (fst e) EToV []) 0%nat \/ v = nth (if (snd e =? 2)%nat then 0%nat else S (snd e)) (nth (fst e) EToV []) 0%nat.
(* both ends are near the curve *)
Definition joins (EToV : list (list nat)) (Verts : list (list R)) (xS yS : list R) (e : nat * nat) : Prop :=
  forall v, is_end EToV e v -> close_to_curve xS yS (place (nth v Verts [])).
(* m lists the entries of l with the property Q, in order *)
Inductive select {X} (Q : X -> Prop) : list X -> list X -> Prop :=
| select_nil : select Q [] []
| select_yes a l m : Q a -> select Q l m -> select Q (a :: l) (a :: m)
| select_no a l m : ~ Q a -> select Q l m -> select Q (a :: l) m.
(* triangles, vertices with two coordinates or more *)
Definition table_ok (EToV : list (list nat)) (Verts : list (list R)) (faces : list (nat * nat)) : Prop :=
  (forall row, In row Verts -> (2 <= length row)%nat) /\
  forall e, In e faces -> (fst e < length EToV)%nat /\ (snd e < 3)%nat /\ length (nth (fst e) EToV []) = 3%nat /\
    forall v, In v (nth (fst e) EToV []) -> (v < length Verts)%nat.

(* --- deformation --- *)
Definition on_sample (xS yS : list R) (p : point) (i : nat) : Prop := (i < length xS)%nat /\ apart p (sample xS yS i) < 1 / 100000000.
Definition the_sample (xS yS : list R) (p : point) (i : nat) : Prop := on_sample xS yS p i /\ forall j, on_sample xS yS p j -> j = i.
(* the two ends of side f, in the direction of the parameter that runs along it from -1 to 1: r on side 0, s on sides 1, 2 *)
Definition side_ends (ends : list nat) (f : nat) : nat * nat :=
  match f with 0%nat => (nth 0 ends 0%nat, nth 1 ends 0%nat) | 1%nat => (nth 1 ends 0%nat, nth 2 ends 0%nat) | _ => (nth 0 ends 0%nat, nth 2 ends 0%nat) end.
Definition side_coord (f : nat) (r s : list R) : list R := match f with 0%nat => r | _ => s end.
(* the part of the displacement of side f that reaches the point (r, s) *)
Definition side_blend (f : nat) (r s : R) : R := match f with 0%nat => - (r + s) / (1 - r) | 1%nat => (r + 1) / (1 - s) | _ => - (r + s) / (1 - s) end.
(* the reference point (r, s) lies on side f *)
Definition on_side (f : nat) (r s : R) : Prop := match f with 0%nat => s = -1 | 1%nat => r + s = 0 | _ => r = -1 end.
(* the parameter of the curve at coordinate q of the side *)
Definition curve_at (t1 t2 q : R) : R := (t1 * (1 - q) + t2 * (1 + q)) / 2.

(* Column k of x' is that of x moved by the blended displacement of side f, whose nodes are fm: the polynomial of degree N
   along the side with the values curve - x at the nodes of the side, times the blend. Nodes where the coordinate of the side
   is 1 (within 1e-7) stay. *)
Definition follows (N : nat) (r s : list R) (fm : list nat) (f k : nat) (curve : R -> R) (t1 t2 : R) (x x' : mat R) : Prop :=
  exists cs, (length cs <= S N)%nat /\
  (forall n, In n fm -> let q := nth n (side_coord f r s) 0 in peval cs q = curve (curve_at t1 t2 q) - ment x n k) /\
  forall n, (n < length r)%nat -> let q := nth n (side_coord f r s) 0 in
    (Rabs (1 - q) > 1 / 10000000 -> ment x' n k = ment x n k + side_blend f (nth n r 0) (nth n s 0) * peval cs q) /\
    (Rabs (1 - q) <= 1 / 10000000 -> ment x' n k = ment x n k).
(* the arrays fit together: Np nodes, three lists of N+1 face nodes, listed faces inside *)
Definition arrays_ok (N : nat) (r s : list R) (mask : list (list nat)) (EToV : list (list nat)) (Verts : list (list R)) (xS ss : list R) (faces : list (nat * nat)) (x y : mat R) : Prop :=
  length s = length r /\ mrows x = length r /\ mrows y = length r /\ length mask = 3%nat /\
  (forall fm, In fm mask -> length fm = S N /\ forall n, In n fm -> (n < length r)%nat) /\ table_ok EToV Verts faces /\ length ss = length xS /\
  forall e, In e faces -> (fst e < mcols x)%nat /\ (fst e < mcols y)%nat.
(* the points of the two ends of face e *)
Definition end_points (EToV : list (list nat)) (Verts : list (list R)) (e : nat * nat) : point * point :=
  let '(a, b) := side_ends (nth (fst e) EToV []) (snd e) in (place (nth a Verts []), place (nth b Verts [])).
