(* MeshSpec.v - what the mesh tables are expected to contain, in terms of the element table alone. *)
From Coq Require Import ZArith List Reals.
From Verif Require Import Base.
Import ListNotations.
Local Open Scope nat_scope.

(* Face g of a mesh of NF-sided elements, faces numbered element after element: it goes from local
   vertex f of its element to the next one, round the element. E2V lists the elements' vertices. *)
Definition face (NF : nat) (E2V : list Z) (g : nat) (a b : Z) : Prop :=
  nth_error E2V g = Some a /\ nth_error E2V (g / NF * NF + (g mod NF + 1) mod NF) = Some b.

Definition same_pair (a b c d : Z) : Prop := (a = c /\ b = d) \/ (a = d /\ b = c).

(* Two different faces with the same two vertices. *)
Definition shares (NF : nat) (E2V : list Z) (g h : nat) : Prop :=
  g <> h /\ exists a b c d, face NF E2V g a b /\ face NF E2V h c d /\ same_pair a b c d.

(* K triangles or quadrilaterals over NV vertices, with no face of zero length, and small enough for
   the sparse matrices built from it. *)
Record mesh_table (NV K NF : nat) (E2V : list Z) : Prop := {
  mt_nf : NF = 3 \/ NF = 4;
  mt_len : length E2V = K * NF;
  mt_range : forall v, In v E2V -> (0 <= v < Z.of_nat NV)%Z;
  mt_faces : forall g a b, face NF E2V g a b -> a <> b;
  mt_size : (Z.of_nat NV * Z.of_nat (NF * K) <= INT_MAX)%Z }.

(* The neighbour of face g: the highest-numbered face sharing its vertices, or itself if none does. *)
Definition neighbour (NF : nat) (E2V : list Z) (g h : nat) : Prop :=
  (h = g /\ forall h', ~ shares NF E2V g h') \/
  (shares NF E2V g h /\ forall h', shares NF E2V g h' -> h' <= h).

(* No three faces have the same two vertices. *)
Definition conforming (NF : nat) (E2V : list Z) : Prop :=
  forall g h h', shares NF E2V g h -> shares NF E2V g h' -> h = h'.

(* No two faces run between the same vertices in the same direction. *)
Definition oriented (NF : nat) (E2V : list Z) : Prop :=
  forall g h a b, face NF E2V g a b -> face NF E2V h a b -> g = h.

(* Tables indexed by face: neighbouring element and the face's number in it. *)
Definition links (NF : nat) (E2E E2F : list nat) (g h : nat) : Prop :=
  nth_error E2E g = Some (h / NF) /\ nth_error E2F g = Some (h mod NF).

(* The vertices of every element are different. *)
Definition distinct_verts (NF : nat) (E2V : list Z) : Prop :=
  forall k i j v, i < NF -> j < NF ->
  nth_error E2V (k * NF + i) = Some v -> nth_error E2V (k * NF + j) = Some v -> i = j.

(* Entry g of a table is x. *)
Definition entry {A} (l : list A) (g : nat) (x : A) : Prop := nth_error l g = Some x.

(* Vertex v of a table with dim coordinates per vertex has plane coordinates (x, y). *)
Definition vertex_at {R} (dim : nat) (V : list R) (v : Z) (x y : R) : Prop :=
  (0 <= v)%Z /\ nth_error V (Z.to_nat v * dim) = Some x /\ nth_error V (Z.to_nat v * dim + 1) = Some y.

(* The i-th vertex of element k. *)
Definition corner (NF : nat) (E2V : list Z) (k i : nat) (v : Z) : Prop := nth_error E2V (k * NF + i) = Some v.

(* Twice the signed area of the triangle (ax,ay) (bx,by) (cx,cy). *)
Definition area2 (ax ay bx by_ cx cy : R) : R := ((bx - ax) * (cy - ay) - (cx - ax) * (by_ - ay))%R.

(* The open segments p1 p2 and q1 q2 meet. *)
Definition cross (p1x p1y p2x p2y q1x q1y q2x q2y : R) : Prop :=
  exists s t : R, (0 < s < 1)%R /\ (0 < t < 1)%R /\
    (p1x + s * (p2x - p1x) = q1x + t * (q2x - q1x))%R /\ (p1y + s * (p2y - p1y) = q1y + t * (q2y - q1y))%R.
(* A quadrilateral with two opposite sides that cross. *)
Definition self_crossing (ax ay bx by_ cx cy dx dy : R) : Prop :=
  cross ax ay bx by_ cx cy dx dy \/ cross bx by_ cx cy dx dy ax ay.
