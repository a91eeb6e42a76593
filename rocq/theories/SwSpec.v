(* SwSpec.v - the shallow water equations, the Rusanov flux, and the discontinuous Galerkin scheme of a shallow water
   driver on a triangle mesh. *)
From Coq Require Import ZArith List Reals.
From Verif Require Import Base Loops JacobiSpec TriSpec MeshSpec TriGeoSpec TriDGSpec.
Import ListNotations.
Local Open Scope R_scope.

(* depth h and the discharges hu, hv *)
Definition cell := (R * R * R)%type.
Definition part (c : nat) (q : cell) : R := match c with O => fst (fst q) | S O => snd (fst q) | _ => snd q end.
(* the physical fluxes in the directions x and y, and component c of the flux through a line with unit normal n *)
Definition flux_x (g : R) (q : cell) : cell := let '(h, hu, hv) := q in (hu, hu * hu / h + g * (h * h) / 2, hu * hv / h).
Definition flux_y (g : R) (q : cell) : cell := let '(h, hu, hv) := q in (hv, hu * hv / h, hv * hv / h + g * (h * h) / 2).
Definition through (g : R) (c : nat) (n : point) (q : cell) : R := fst n * part c (flux_x g q) + snd n * part c (flux_y g q).
(* |u| + sqrt (g h) *)
Definition wave_speed (g : R) (q : cell) : R :=
  let '(h, hu, hv) := q in sqrt ((hu / h) * (hu / h) + (hv / h) * (hv / h)) + sqrt (g * h).
(* the Rusanov (local Lax-Friedrichs) flux with dissipation lam, from the side of a to the side of b *)
Definition rusanov (g : R) (c : nat) (n : point) (lam : R) (a b : cell) : R :=
  (through g c n a + through g c n b) / 2 + lam / 2 * (part c a - part c b).
(* the state with the normal discharge reversed *)
Definition mirror (n : point) (q : cell) : cell :=
  let '(h, hu, hv) := q in let d := hu * fst n + hv * snd n in (h, hu - 2 * d * fst n, hv - 2 * d * snd n).
Definition is_max (P : R -> Prop) (m : R) : Prop := P m /\ forall v, P v -> v <= m.

(* Three-component fields at the nodes. *)
Definition field := (mat R * mat R * mat R)%type.
Definition fieldc (c : nat) (q : field) : mat R := match c with O => fst (fst q) | S O => snd (fst q) | _ => snd q end.
Definition at_node (q : field) (i k : nat) : cell := (ment (fieldc 0 q) i k, ment (fieldc 1 q) i k, ment (fieldc 2 q) i k).

Section Scheme.
(* order, number of nodes of an element, number of elements, mesh, node coordinates, state *)
Variables (N Np K : nat) (Vert : list R) (EToV : list nat) (x y : mat R) (g : R) (q : field).
(* Boundary conditions: what stands beyond node i of side f of element k, with outward normal n and state own there, if
   the side is subject to a boundary condition. *)
Variable beyond : nat -> nat -> option (nat -> point -> cell -> cell).
Definition node_at (i k : nat) : point := (ment x i k, ment y i k).
Definition next (f : nat) : nat := ((f + 1) mod 3)%nat.
Definition from_ (k f : nat) : point := corner Vert EToV k f.
Definition to_ (k f : nat) : point := corner Vert EToV k (next f).
Definition normal_of (k f : nat) (n : point) : Prop := outward_normal (from_ k f) (to_ k f) (corner Vert EToV k ((f + 2) mod 3)) n.
Definition joined (k f k2 f2 : nat) : Prop := shares 3 (map Z.of_nat EToV) (3 * k + f) (3 * k2 + f2).

(* At parameter t of side f of element k there is a node; the state on this side of it is own and on the far side other:
   the boundary condition's, the neighbour's at the same point, or own again on a side with neither. *)
Definition facing (k f : nat) (t : R) (own other : cell) : Prop :=
  exists i, (i < Np)%nat /\ node_at i k = side_point (from_ k f) (to_ k f) t /\ own = at_node q i k /\
  match beyond k f with
  | Some B => exists n, normal_of k f n /\ other = B i n own
  | None => (exists k2 f2 i2, (k2 < K)%nat /\ (f2 < 3)%nat /\ joined k f k2 f2 /\ (i2 < Np)%nat /\ node_at i2 k2 = node_at i k /\ other = at_node q i2 k2) \/
            ((forall k2 f2, (f2 < 3)%nat -> ~ joined k f k2 f2) /\ other = own)
  end.
(* the largest wave speed met on either side of side f of element k; and on any side *)
Definition speeds (k f : nat) (v : R) : Prop :=
  exists t own other, facing k f t own other /\ (v = wave_speed g own \/ v = wave_speed g other).
Definition local_speed (k f : nat) (lam : R) : Prop := is_max (speeds k f) lam.
Definition global_speed (k f : nat) (lam : R) : Prop := is_max (fun v => exists k f, (k < K)%nat /\ (f < 3)%nat /\ speeds k f v) lam.

Variable speed_of : nat -> nat -> R -> Prop.
(* cs is the flux of component c out of element k through side f: the polynomial of degree N with the Rusanov values at
   the N+1 nodes of the side. *)
Definition side_flux (k f c : nat) (cs : list R) : Prop :=
  (length cs <= S N)%nat /\
  (exists l, NoDup l /\ length l = S N /\ forall t, In t l -> exists own other, facing k f t own other) /\
  exists n lam, normal_of k f n /\ speed_of k f lam /\
  forall t own other, facing k f t own other -> peval cs t = rusanov g c n lam own other.

(* z is the rate of change of the scheme: component c on element k balances the polynomial interpolants of the physical
   fluxes inside and the side fluxes. *)
Definition interpolant (m : mat R) (k : nat) (p : poly2) : Prop := degree2 N p /\ forall i, (i < Np)%nat -> at_point p (node_at i k) = ment m i k.
Definition dg_scheme (z : field) : Prop :=
  forall k c, (k < K)%nat -> (c < 3)%nat ->
  exists Z F G S0 S1 S2,
    interpolant (fieldc c z) k Z /\
    degree2 N F /\ (forall i, (i < Np)%nat -> at_point F (node_at i k) = part c (flux_x g (at_node q i k))) /\
    degree2 N G /\ (forall i, (i < Np)%nat -> at_point G (node_at i k) = part c (flux_y g (at_node q i k))) /\
    side_flux k 0 c S0 /\ side_flux k 1 c S1 /\ side_flux k 2 c S2 /\
    dg_balance N (corner Vert EToV k 0) (corner Vert EToV k 1) (corner Vert EToV k 2) Z F G S0 S1 S2.
End Scheme.

(* The boundary conditions of the drivers: tag 3 is a wall; in src/sw2d tag 2 is open, with depth H + tide outside. *)
Definition tag_of (bcType : list Z) (k f : nat) : Z := nth (3 * k + f) bcType 0%Z.
Definition walls (bcType : list Z) (k f : nat) : option (nat -> point -> cell -> cell) :=
  if Z.eqb (tag_of bcType k f) 3 then Some (fun _ n q => mirror n q) else None.
Definition walls_and_tide (bcType : list Z) (H : mat R) (tide : R) (k f : nat) : option (nat -> point -> cell -> cell) :=
  if Z.eqb (tag_of bcType k f) 2 then Some (fun i _ q => (ment H i k + tide, snd (fst q), snd q))
  else walls bcType k f.

(* The source terms of src/sw2d: bottom slope (Hx, Hy the gradient of the depth below the reference level), quadratic
   bottom drag CD |u| u and Coriolis force. *)
Definition source (g CD f Hx Hy : R) (c : nat) (q : cell) : R :=
  let '(h, hu, hv) := q in let u := hu / h in let v := hv / h in let s := sqrt (u * u + v * v) in
  match c with O => 0 | S O => g * h * Hx - CD * s * u + f * hv | _ => g * h * Hy - CD * s * v - f * hu end.
