(* GaussPoissonSpec.v - the setting of the Poisson operator on cubature and Gauss face nodes, and the form it represents. *)
From Coq Require Import ZArith List Bool.
From Verif Require Import Base Loops Num JacobiModel JacobiSpec MeshSpec TriSpec TriGeoSpec TriDGSpec TriSetup SwSpec PoissonSpec GaussFaceModel GaussFaceSpec CubMeshModel CubMeshSpec.
From Verif Require Import TriModel.
From Coq Require Import Reals.
Import ListNotations.
Local Open Scope R_scope.

(* The Gauss face nodes gf and the cubature mesh cc have been built for the operators el of order N on a mesh of K >= 1
   triangles, and the penalty factor and the capacity of the triplets fit the integers of the program. *)
Record gp_ready (G : R -> R) (solve : mat R -> mat R -> mat R -> outcome (mat R)) (inverse chol : mat R -> mat R -> outcome (mat R))
  (junk : nat -> nat -> R) (eps : R) (eig : nat -> (nat -> nat -> R) -> list R * (nat -> nat -> R)) (tol : R)
  (N K : nat) (Vert : list R) (EToV : list nat) (el : element (T := R)) (E2E E2F : list nat) (bc : list Z) (NG : nat) (lit : Z -> R) (NC : nat)
  (junkg : nat -> nat -> gpoint R) (junkn : nat -> nat) (junkc : nat -> R) (gf : gauss_faces R) (cc : cub_mesh R) : Prop := {
  gp_gauss : gauss_ready G solve inverse junk eps eig tol N K Vert EToV el E2E E2F bc NG;
  gp_cub : cub_ready G solve inverse chol junk eps eig tol N K Vert EToV el lit NC;
  gp_gf : buildGaussFaceNodes (exact G) pow junk eps eig N K NG (e_Vinv el) (e_Dr el) (e_Ds el) (e_x el) (e_y el) junkg junkn E2E E2F bc = Ok gf;
  gp_cc : buildCubatureVolumeMesh (exact G) pow solve chol junk lit junkc (Z.of_nat NC) N K (e_V el) (e_Vinv el) (e_Dr el) (e_Ds el) (e_x el) (e_y el) = Ok cc;
  gp_some : (0 < K)%nat;
  gp_factor : (20000 * Z.of_nat (N + 1) * Z.of_nat (N + 1) <= INT_MAX)%Z;
  gp_size : (4 * Z.of_nat (length (e_r el)) * Z.of_nat (length (e_r el)) * Z.of_nat K <= INT_MAX)%Z }.

(* The elements are large, and their areas comparable, on the scale of eps. *)
Definition resolved (eps : R) (K : nat) (Vert : list R) (EToV : list nat) (el : element (T := R)) : Prop :=
  forall k, (k < K)%nat -> 20 * eps <= cell_area Vert EToV k /\ forall k2, (k2 < K)%nat -> forall c, In c [e_x el; e_y el] ->
    10 * eps * sumn (length (e_r el)) (fun i => Rabs (ment c i k2)) * cell_area Vert EToV k < cell_area Vert EToV k2.

Section Form.
Variables (N K Np NG : nat) (Vert : list R) (EToV E2E E2F : list nat) (bc : list Z) (gf : gauss_faces R) (cc : cub_mesh R).
(* Gauss point g of side f of element k, its weight and normal; cubature point i of element k *)
Definition gauss_point (k f g : nat) : point := (ment (gf_x gf) (f * NG + g) k, ment (gf_y gf) (f * NG + g) k).
Definition gauss_weight (k f g : nat) : R := ment (gf_W gf) (f * NG + g) k.
Definition gauss_normal (k f g : nat) : point := (ment (gf_nx gf) (f * NG + g) k, ment (gf_ny gf) (f * NG + g) k).
Definition cub_point (k i : nat) : point := (ment (cc_x cc) i k, ment (cc_y cc) i k).
(* the neighbour across side f of element k, and its side *)
Definition nb (k f : nat) : nat := nth (3 * k + f) E2E 0%nat.
Definition nbf (k f : nat) : nat := nth (3 * k + f) E2F 0%nat.
Definition over_sides (P : nat -> nat -> Prop) : Prop := forall k f, (k < K)%nat -> (f < 3)%nat -> P k f.

(* the gradients sampled at the cubature points *)
Definition volume_form (U V : piecewise) (k : nat) : R :=
  sumn (cc_n cc) (fun i => ment (cc_W cc) i k * (along (1, 0) V k (cub_point k i) * along (1, 0) U k (cub_point k i) + along (0, 1) V k (cub_point k i) * along (0, 1) U k (cub_point k i))).
Definition mass_form (U V : piecewise) (k : nat) : R :=
  sumn (cc_n cc) (fun i => ment (cc_W cc) i k * (val_at V k (cub_point k i) * val_at U k (cub_point k i))).
Definition side_sum (k f : nat) (h : nat -> R) : R := sumn NG (fun g => gauss_weight k f g * h g).
(* slope of U on element k2 in the direction of the normal of side f of element k, taken at the Gauss points of side 0 of k2 *)
Definition slope0 (k f : nat) (U : piecewise) (k2 g : nat) : R := along (gauss_normal k f g) U k2 (gauss_point k2 0 g).

(* What side f of element k contributes. The interior penalty form would take the slopes at the points of side f, the
   point NG-1-g on the other side, and in place of the product of the nodal sums the product of the two traces. *)
Definition side_form (u v : nat -> R) (U V : piecewise) (k f : nat) : R :=
  let k2 := nb k f in let f2 := nbf k f in let t := tau N Vert EToV k f k2 f2 in
  let Vk := fun g => val_at V k (gauss_point k f g) in let Uk := fun g => val_at U k (gauss_point k f g) in
  let total := fun (w : nat -> R) l => sumn Np (fun i => w (Np * l + i)%nat) in
  if (tag_of bc k f =? 6)%Z then side_sum k f (fun g => t * (Vk g * Uk g) - Vk g * Uk g - slope0 k f V k g * Uk g)
  else if (tag_of bc k f =? 7)%Z || (tag_of bc k f =? 3)%Z then 0
  else side_sum k f (fun g => t / 2 * (Vk g * Uk g) - / 2 * (Vk g * slope0 k f U k g) - / 2 * (slope0 k f V k g * Uk g))
    - t / 2 * side_sum k f (fun _ => 1) * (total v k * total u k2)
    - / 2 * (cell_area Vert EToV k2 / cell_area Vert EToV k) * side_sum k f (fun g => Vk g * slope0 k f U k2 g)
    + / 2 * side_sum k f (fun g => slope0 k f V k g * val_at U k2 (gauss_point k2 f2 (Nat.max g (NG - 1 - g)))).
Definition operator_form (u v : nat -> R) (U V : piecewise) : R :=
  sumn K (fun k => volume_form U V k + sumn 3 (side_form u v U V k)).
End Form.
