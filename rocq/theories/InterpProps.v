(* InterpProps.v - consequences of C68 for single rows and columns of the interpolation matrix of the triangle. *)
From Coq Require Import ZArith List Lia Bool Arith.
From Verif Require Import Base Loops Num BlitzModel JacobiModel JacobiSpec JacobiProofs JacobiOrthProofs JacobiQuadProofs JacobiExactProofs JacobiProps DenseSpec Nodes1DModel Nodes1DSpec Nodes1DExactProofs TriModel TriSpec TriGeoSpec TriSetup TriBasisProofs TriProofs TriOpProofs TriElemProofs TriWitness TriProps TriDGProofs.
From Coq Require Import Reals Lra.
Import ListNotations.
Local Open Scope R_scope.

Lemma unit_sum n i (f : nat -> R) : (i < n)%nat -> sumn n (fun m => f m * (if (m =? i)%nat then 1 else 0)) = f i.
Proof.
  induction n as [|n IH]; intro Hi; [lia|]. rewrite sumn_S. destruct (Nat.eq_dec i n) as [->|Hn].
  - rewrite Nat.eqb_refl, (sumn_ext n _ (fun _ => 0)), sumn_zero; [ring|reflexivity|]. intros m Hm. destruct (Nat.eqb_spec m n); [lia|ring].
  - rewrite IH by lia. destruct (Nat.eqb_spec n i); [lia|ring].
Qed.

Section Interp.
Variables (G : R -> R) (solve : mat R -> mat R -> mat R -> outcome (mat R)) (inverse : mat R -> mat R -> outcome (mat R))
  (junk : nat -> nat -> R) (eps : R) (eig : nat -> (nat -> nat -> R) -> list R * (nat -> nat -> R)) (tol : R)
  (N K : nat) (Vert : list R) (EToV : list nat) (el : element (T := R)).
Local Notation B := (built G solve inverse junk eps eig tol N K Vert EToV el).
Local Notation r := (e_r el).
Local Notation s := (e_s el).

(* every row has sum one; interpolating the node coordinates gives the requested points; at a point that is a node the row picks the
   value at that node *)
Theorem C68_rows : B -> forall rout sout IM, length rout = length sout -> (forall k, (k < length rout)%nat -> in_domain (nth k rout 0) (nth k sout 0)) ->
  computeInterpMatrix (exact G) pow junk N (e_Vinv el) rout sout = Ok IM -> forall k, (k < length rout)%nat ->
  sumn (length r) (fun m => ment IM k m) = 1 /\
  ((1 <= N)%nat -> sumn (length r) (fun m => ment IM k m * nth m r 0) = nth k rout 0 /\ sumn (length r) (fun m => ment IM k m * nth m s 0) = nth k sout 0) /\
  (forall i, (i < length r)%nat -> nth k rout 0 = nth i r 0 -> nth k sout 0 = nth i s 0 -> forall m, (m < length r)%nat -> ment IM k m = if (m =? i)%nat then 1 else 0).
Proof.
  intros HB rout sout IM HL HD E k Hk. destruct (C68_interpolation _ _ _ _ _ _ _ _ _ _ _ _ HB rout sout HL HD) as (IM' & E' & _ & H). assert (IM' = IM) by congruence. subst IM'. split; [|split].
  - assert (D : degree2 N [(0%nat, 0%nat, 1)]) by (constructor; [cbn; lia|constructor]). pose proof (H _ k D Hk) as Q. cbn [eval2 pow] in Q. rewrite (sumn_ext _ _ (fun m => ment IM k m * (1 * 1 * 1 + 0))) by (intros; ring). rewrite Q. ring.
  - intro HN. split.
    + assert (D : degree2 N [(1%nat, 0%nat, 1)]) by (constructor; [cbn; lia|constructor]). pose proof (H _ k D Hk) as Q. cbn [eval2] in Q. rewrite (sumn_ext _ _ (fun m => ment IM k m * (1 * nth m r 0 ^ 1 * nth m s 0 ^ 0 + 0))) by (intros; ring). rewrite Q. ring.
    + assert (D : degree2 N [(0%nat, 1%nat, 1)]) by (constructor; [cbn; lia|constructor]). pose proof (H _ k D Hk) as Q. cbn [eval2] in Q. rewrite (sumn_ext _ _ (fun m => ment IM k m * (1 * nth m r 0 ^ 0 * nth m s 0 ^ 1 + 0))) by (intros; ring). rewrite Q. ring.
  - intros i Hi E1 E2 m Hm. destruct (nodal_poly _ _ _ _ _ _ _ _ _ _ _ _ HB (fun q => if (q =? m)%nat then 1 else 0)) as (p & Dp & Hp). pose proof (H p k Dp Hk) as Q. rewrite E1, E2, (Hp i Hi) in Q.
    rewrite (sumn_ext _ _ (fun q => ment IM k q * (if (q =? m)%nat then 1 else 0))) in Q by (intros q Hq; rewrite (Hp q Hq); reflexivity). rewrite unit_sum in Q by exact Hm. rewrite Q, Nat.eqb_sym. reflexivity.
Qed.
End Interp.
(* For the unit square cut into two triangles, order 1, the matrix for the points (-1/2, -1/3) and (1/5, -4/5) is computed, and the first
   of its rows has sum one and reproduces the first coordinate. *)
Example C68_rows_witness : let Vert := [0; 0; 0;  1; 0; 0;  1; 1; 0;  0; 1; 0] in let EToV := [0; 1; 2;  0; 2; 3]%nat in
  let rout := [- 1 / 2; 1 / 5] in let sout := [- 1 / 3; - 4 / 5] in
  exists el IM, built gwit cramer cramer_inv junk0 0 eig0 (1 / 10) 1 2 Vert EToV el /\
    (forall k, (k < length rout)%nat -> in_domain (nth k rout 0) (nth k sout 0)) /\
    computeInterpMatrix (exact gwit) pow junk0 1 (e_Vinv el) rout sout = Ok IM /\
    sumn (length (e_r el)) (fun m => ment IM 0 m) = 1 /\
    sumn (length (e_r el)) (fun m => ment IM 0 m * nth m (e_r el) 0) = - 1 / 2.
Proof.
  intros Vert EToV rout sout. destruct tri_witness as (el & HB).
  assert (HD : forall k, (k < length rout)%nat -> in_domain (nth k rout 0) (nth k sout 0)).
  { intros k Hk. cbn in Hk. unfold in_domain. destruct k as [|[|k]]; [cbn; lra|cbn; lra|lia]. }
  destruct (C68_interpolation _ _ _ _ _ _ _ _ _ _ _ _ HB rout sout eq_refl HD) as (IM & E & _).
  exists el, IM. destruct (C68_rows _ _ _ _ _ _ _ _ _ _ _ _ HB rout sout IM eq_refl HD E 0%nat) as (H1 & H2 & _); [cbn; lia|].
  split; [exact HB|split; [exact HD|split; [exact E|split; [exact H1|]]]]. exact (proj1 (H2 (le_n 1))).
Qed.
Print Assumptions C68_rows.
