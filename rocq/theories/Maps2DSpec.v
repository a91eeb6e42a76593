(* Maps2DSpec.v - vocabulary for the maps of the 2D provisioners. *)
From Coq Require Import ZArith List.
From Verif Require Import Base Loops MeshSpec.
Import ListNotations.
Local Open Scope nat_scope.

(* Number of node i of element k among the volume nodes, and of node n of face f of element k among the face nodes. *)
Definition volume_id (Np i k : nat) : nat := i + Np * k.
Definition face_id (NF Nfp n f k : nat) : nat := n + f * Nfp + k * NF * Nfp.

(* A mesh of K elements with NF faces, its connectivity tables, face node table and coordinates, of matching sizes. *)
Record tables_ok {T} (NF Nfp Np K : nat) (Fm : mat nat) (x y : mat T) (E2E E2F E2V : list nat) (Vert : list T) : Prop := {
  tb_nf : 0 < NF;
  tb_fm : mrows Fm = Nfp /\ mcols Fm = NF /\ forall n f, n < Nfp -> f < NF -> ment Fm n f < Np;
  tb_x : mrows x = Np /\ mcols x = K;
  tb_y : mrows y = Np /\ mcols y = K;
  tb_e2e : length E2E = NF * K /\ forall k, In k E2E -> k < K;
  tb_e2f : length E2F = NF * K /\ forall f, In f E2F -> f < NF;
  tb_e2v : length E2V = NF * K /\ forall v, In v E2V -> 3 * v + 1 < length Vert }.

(* The faces are paired off: following the connectivity twice returns, and only a face that is its own partner has its own
   element as neighbour. *)
Definition paired (NF K : nat) (E2E E2F : list nat) : Prop :=
  (forall g, g < NF * K -> exists h, h < NF * K /\ links NF E2E E2F g h /\ links NF E2E E2F h g) /\
  forall g h, links NF E2E E2F g h -> h / NF = g / NF -> h = g.

Fixpoint increasing (l : list nat) : Prop :=
  match l with a :: (b :: _) as t => a < b /\ increasing t | _ => True end.

(* Positions i of a table, counted from c on, whose entry satisfies p, in increasing order. *)
Definition positions {A} (p : A -> bool) (l : list A) : list nat :=
  filter (fun i => match nth_error l i with Some a => p a | None => false end) (seq 0 (length l)).

From Verif Require Import Num.
Section Geometry.
Context {T : Type}.
Variable A : arith T.
Variable hypot : T -> T -> T.
(* Node n of face f of element k, mesh vertex v, the length of face f of element k (computed with hypot). *)
Definition face_point (Fm : mat nat) (x y : mat T) (n f k : nat) : T * T := (ment x (ment Fm n f) k, ment y (ment Fm n f) k).
Definition mesh_vertex (Vert : list T) (v : nat) : T * T := (nth (3 * v) Vert (fofZ A 0), nth (3 * v + 1) Vert (fofZ A 0)).
Definition distance (p q : T * T) : T := hypot (fsub A (fst q) (fst p)) (fsub A (snd q) (snd p)).
Definition face_len (NF : nat) (E2V : list nat) (Vert : list T) (f k : nat) : T :=
  distance (mesh_vertex Vert (nth (k * NF + (f + 1) mod NF) E2V 0)) (mesh_vertex Vert (nth (k * NF + f) E2V 0)).
(* q is within tol times the length of face f of element k from p *)
Definition matches (NF : nat) (E2V : list nat) (Vert : list T) (tol : T) (f k : nat) (p q : T * T) : bool :=
  flt A (distance p q) (fmul A (face_len NF E2V Vert f k) tol).
End Geometry.
