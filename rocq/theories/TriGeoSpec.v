(* TriGeoSpec.v - straight-sided triangles in the plane. *)
From Coq Require Import List Reals.
Import ListNotations.
Local Open Scope R_scope.

Notation point := (R * R)%type.
(* Corner c (0, 1, 2) of element k: element k's vertex numbers are entries 3k, 3k+1, 3k+2 of EToV; vertex v has
   its coordinates x, y, z at 3v, 3v+1, 3v+2 of Vert. *)
Definition corner (Vert : list R) (EToV : list nat) (k c : nat) : point :=
  let v := nth (3 * k + c) EToV 0%nat in (nth (3 * v) Vert 0, nth (3 * v + 1) Vert 0).
Definition mesh_ok (K : nat) (Vert : list R) (EToV : list nat) : Prop :=
  length EToV = (3 * K)%nat /\ forall v, In v EToV -> (3 * v + 2 < length Vert)%nat.

Definition cross (u v : point) : R := fst u * snd v - snd u * fst v.
Definition dot (u v : point) : R := fst u * fst v + snd u * snd v.
Definition pminus (p q : point) : point := (fst p - fst q, snd p - snd q).
Definition side_length (p q : point) : R := sqrt (dot (pminus q p) (pminus q p)).
(* signed area of a triangle: positive when the corners run counter-clockwise *)
Definition area (a b c : point) : R := cross (pminus b a) (pminus c a) / 2.
(* the affine map taking (-1,-1), (1,-1), (-1,1) to a, b, c *)
Definition affine_image (a b c : point) (r s : R) : point :=
  (fst a + (1 + r) / 2 * (fst b - fst a) + (1 + s) / 2 * (fst c - fst a),
   snd a + (1 + r) / 2 * (snd b - snd a) + (1 + s) / 2 * (snd c - snd a)).

(* n is the unit normal of side p-q pointing away from the third corner t *)
Definition outward_normal (p q t n : point) : Prop :=
  dot n n = 1 /\ dot n (pminus q p) = 0 /\ dot n (pminus t p) < 0.
