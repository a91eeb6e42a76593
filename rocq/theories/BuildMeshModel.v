(* BuildMeshModel.v - MeshManager::buildMesh: a mesh from two numpy arrays.
   Simplified: the sizes are taken exactly (no overflow of the int products) and the console output is left out. *)
From Coq Require Import ZArith List Bool.
From Flocq Require Import IEEE754.Binary IEEE754.Bits.
From Verif Require Import Base Loops NumpyModel MeshModel.
Import ListNotations.
Local Open Scope nat_scope.

Section Build.
Variables B X : Type.
Variable c : ctype B X.                  (* real_type *)
Variable r_sub r_mul : X -> X -> X.
Variable neg : X -> bool.                (* x < 0 *)
Variable to_index : X -> outcome Z.      (* static_cast<index_type>(x) *)
Variable jk : nat * dbl.
Variable jp ji : nat -> nat.
Variable jx : nat -> dbl.

(* std::vector<real_type>(reinterpret_cast<real_type*>(a.get_data()), reinterpret_cast<real_type*>(a.get_data() + 8*n)):
   src/MeshManager.cpp:87-88 *)
Definition raw_doubles (a : ndarray B) (n : nat) : outcome (list X) :=
  bind (load (nd_bytes a) (nd_data a) (8 * n)) (fun b => Ok (elements c n b)).

(* src/MeshManager.cpp:91 and 96-98: both convert every double to an index, in order. *)
Fixpoint to_indices (l : list X) : outcome (list Z) :=
  match l with
  | [] => Ok []
  | x :: t => bind (to_index x) (fun v => bind (to_indices t) (fun vs => Ok (v :: vs)))
  end.

(* src/MeshManager.cpp:74-121; je, jf, jb are the uninitialised tables. *)
Definition buildMesh (EToVnp Vertnp : ndarray B) (je jf : nat -> nat) (jb : nat -> Z) : outcome (mesh X) :=
  bind (shape_at Vertnp 1) (fun Dim => bind (shape_at Vertnp 0) (fun NumVerts =>
  bind (shape_at EToVnp 1) (fun NumFaces => bind (shape_at EToVnp 0) (fun NumElements =>
  bind (raw_doubles Vertnp (Dim * NumVerts)) (fun V =>
  bind (raw_doubles EToVnp (NumElements * NumFaces)) (fun E =>
  bind (to_indices E) (fun E2V =>
  finish_mesh X r_sub r_mul neg jk jp ji jx Dim (mkraw X V NumVerts NumFaces NumElements E2V) je jf jb))))))).
End Build.

(* ---- the machine's types ---- *)
(* n bytes of z, little-endian, and back *)
Fixpoint bytes_of (n : nat) (z : Z) : list Z :=
  match n with O => [] | S n' => (z mod 256)%Z :: bytes_of n' (z / 256)%Z end.
Fixpoint of_bytes (l : list Z) : Z := match l with [] => 0%Z | b :: t => (b + 256 * of_bytes t)%Z end.
(* real_type: include/Types.hpp (double, IEEE binary64) *)
Definition float64 : ctype Z binary64 :=
  CType 8 (fun x => bytes_of 8 (bits_of_b64 x)) (fun b => b64_of_bits (of_bytes b)) 0%Z.
(* static_cast<int>(double): the fraction is dropped; undefined when the value does not fit *)
Definition index_of_double (x : binary64) : outcome Z :=
  if is_finite 53 1024 x then
    let z := Btrunc 53 1024 x in if in_intb z then Ok z else UB
  else UB.
