(* Poisson2dSpec.v - the local discontinuous Galerkin form of the matrix-free Laplacian of src/poisson2d. *)
From Coq Require Import ZArith List Reals.
From Verif Require Import Base Loops JacobiSpec TriSpec MeshSpec TriGeoSpec TriDGSpec SwSpec.
Import ListNotations.
Local Open Scope R_scope.

(* On the triangle a b c, Z is the divergence of (F, G) with the normal components S0, S1, S2 (functions of the side
   parameter) on the sides ab, bc, ca: against every test polynomial W of degree at most N,
     integral Z W = sum of the integrals over the sides of S W - integral (F, G) . grad W. *)
Definition dg_divergence (N : nat) (a b c : point) (Z F G : poly2) (S0 S1 S2 : list R) : Prop :=
  forall W Wx Wy, degree2 N W ->
  (forall x y, dr_is (eval2 W) x y (Wx x y)) -> (forall x y, ds_is (eval2 W) x y (Wy x y)) ->
  exists vz vf v0 v1 v2,
    element_integral a b c (fun x y => eval2 Z x y * eval2 W x y) vz /\
    element_integral a b c (fun x y => eval2 F x y * Wx x y + eval2 G x y * Wy x y) vf /\
    side_integral a b (fun t => peval S0 t * at_point W (side_point a b t)) v0 /\
    side_integral b c (fun t => peval S1 t * at_point W (side_point b c t)) v1 /\
    side_integral c a (fun t => peval S2 t * at_point W (side_point c a t)) v2 /\
    vz = v0 + v1 + v2 - vf.

(* A cell holds a value and its gradient. Beyond a side tagged 3 stands the negative value with the same gradient, beyond
   one tagged 7 the same value with the normal derivative reversed. *)
Definition reflecting (bcType : list Z) (k f : nat) : option (nat -> point -> cell -> cell) :=
  if Z.eqb (tag_of bcType k f) 3 then Some (fun _ _ q => (- part 0 q, part 1 q, part 2 q))
  else if Z.eqb (tag_of bcType k f) 7 then Some (fun _ n q => mirror n q) else None.

Section Form.
Variables (N Np K : nat) (Vert : list R) (EToV : list nat) (x y : mat R).
Local Notation node i k := (node_at x y i k).
Local Notation P := (corner Vert EToV).

(* gx, gy hold at the nodes the derivatives of the polynomial through the values u of the element *)
Definition gradients (u gx gy : mat R) : Prop := forall k, (k < K)%nat -> exists p, interpolant N Np x y u k p /\
  forall i, (i < Np)%nat -> dr_is (eval2 p) (fst (node i k)) (snd (node i k)) (ment gx i k) /\ ds_is (eval2 p) (fst (node i k)) (snd (node i k)) (ment gy i k).

Section Sides.
Variables (q : field) (beyond : nat -> nat -> option (nat -> point -> cell -> cell)).
(* cs is the polynomial of degree N in the side parameter with the given values at the nodes of side f of element k;
   the value at a node depends on the outward normal, the node and the cells on the two sides *)
Definition side_values (k f : nat) (val : point -> nat -> cell -> cell -> R) (cs : list R) : Prop :=
  (length cs <= S N)%nat /\
  (exists l, NoDup l /\ length l = S N /\ forall t, In t l -> exists own other, facing Np K Vert EToV x y q beyond k f t own other) /\
  exists n, normal_of Vert EToV k f n /\
  forall t i own other, (i < Np)%nat -> node i k = side_point (from_ Vert EToV k f) (to_ Vert EToV k f) t -> facing Np K Vert EToV x y q beyond k f t own other ->
    peval cs t = val n i own other.
(* on element k, z is the divergence of (fx, fy) with the normal components val on the sides *)
Definition divergence_on (k : nat) (z fx fy : mat R) (val : nat -> point -> nat -> cell -> cell -> R) : Prop :=
  exists Z F G S0 S1 S2, interpolant N Np x y z k Z /\ interpolant N Np x y fx k F /\ interpolant N Np x y fy k G /\
    side_values k 0 (val 0%nat) S0 /\ side_values k 1 (val 1%nat) S1 /\ side_values k 2 (val 2%nat) S2 /\
    dg_divergence N (P k 0) (P k 1) (P k 2) Z F G S0 S1 S2.
End Sides.

(* a quarter of the height of the triangle over side f: what the driver's penalty term is multiplied by for want of the
   factor 2 length / area *)
Definition weight (k f : nat) : R := area (P k 0) (P k 1) (P k 2) / (2 * side_length (from_ Vert EToV k f) (to_ Vert EToV k f)).
(* the flux through a node of side f *)
Definition ldg_flux (tau : R) (qx qy : mat R) (k f : nat) (n : point) (i : nat) (own other : cell) : R :=
  fst n * ment qx i k + snd n * ment qy i k -
  weight k f * (fst n * (ment qx i k - (part 1 own + part 1 other) / 2) + snd n * (ment qy i k - (part 2 own + part 2 other) / 2) +
                tau * (part 0 own - part 0 other)).
(* the flux of the symmetric interior penalty method: the mean gradient less tau times the jump *)
Definition penalty_flux (tau : R) (n : point) (own other : cell) : R :=
  fst n * ((part 1 own + part 1 other) / 2) + snd n * ((part 2 own + part 2 other) / 2) - tau * (part 0 own - part 0 other).
(* The operator: q is the gradient of u with the mean of u on the sides; z is the divergence of q with the normal component
   of q on the sides, less weight times (the normal component of q minus the mean gradient, plus tau times the jump of u). *)
Definition poisson2d_form (tau : R) (bcType : list Z) (u z : mat R) : Prop :=
  exists gx gy qx qy zero, gradients u gx gy /\ (forall i k, ment zero i k = 0) /\ forall k, (k < K)%nat ->
  let on := divergence_on (u, gx, gy) (reflecting bcType) k in
  on qx u zero (fun _ n _ own other => fst n * ((part 0 own + part 0 other) / 2)) /\
  on qy zero u (fun _ n _ own other => snd n * ((part 0 own + part 0 other) / 2)) /\
  on z qx qy (ldg_flux tau qx qy k).
(* u is a vector with the Np values of element k from entry Np*k on *)
Definition stacked (v : list R) (u : mat R) : Prop :=
  length v = (Np * K)%nat /\ mrows u = Np /\ mcols u = K /\ forall i k, (i < Np)%nat -> (k < K)%nat -> nth (i + k * Np) v 0 = ment u i k.
End Form.
