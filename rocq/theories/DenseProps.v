(* DenseProps.v - the theorems about the dense LAPACK wrappers (C61). *)
From Coq Require Import ZArith List Lia Bool Arith.
From Verif Require Import Base Loops BlitzModel DenseModel JacobiSpec DenseSpec DenseProofs.
From Coq Require Import Reals Lra.
Import ListNotations.
Local Open Scope R_scope.

(* C61: for every size, the wrapper either throws or returns X with A X = B. *)
Theorem C61_direct_solve dsgesv (A B X : mat R) n m : dsgesv_spec dsgesv ->
  shape A n n -> shape B n m -> shape X n m ->
  direct_solve 0 dsgesv A B X = Throw \/
  exists Y, direct_solve 0 dsgesv A B X = Ok Y /\ shape Y n m /\ product_is n A Y B.
Proof. apply direct_solve_ok. Qed.

Theorem C61_inverse dgetrf dgetri (A X : mat R) n : dgetr_spec dgetrf dgetri -> shape A n n -> shape X n n ->
  computeInverse 0 dgetrf dgetri A X = Throw \/
  exists Y, computeInverse 0 dgetrf dgetri A X = Ok Y /\ shape Y n n /\
    forall i j, (i < n)%nat -> (j < n)%nat ->
      sumn n (fun k => ment A i k * ment Y k j) = (if Nat.eqb i j then 1 else 0) /\
      sumn n (fun k => ment Y i k * ment A k j) = (if Nat.eqb i j then 1 else 0).
Proof. apply inverse_ok. Qed.

(* R is upper triangular and R^T R = A. *)
Theorem C61_cholesky dpotrf (A X : mat R) n : dpotrf_spec dpotrf -> shape A n n -> shape X n n ->
  (forall i j, (i < n)%nat -> (j < n)%nat -> ment A i j = ment A j i) ->
  computeCholesky 0 dpotrf A X = Throw \/
  exists U, computeCholesky 0 dpotrf A X = Ok U /\ shape U n n /\
    (forall i j, (j < i < n)%nat -> ment U i j = 0) /\
    (forall i j, (i < n)%nat -> (j < n)%nat -> sumn n (fun k => ment U k i * ment U k j) = ment A i j).
Proof. apply cholesky_ok. Qed.

(* column j of the returned matrix is a unit eigenvector for eigenvalue j *)
Theorem C61_eigen query dsyevd (A Z0 : mat R) w n : dsyevd_spec dsyevd -> shape A n n -> shape Z0 n n -> length w = n ->
  (forall i j, (i < n)%nat -> (j < n)%nat -> ment A i j = ment A j i) ->
  eigen_solve 0 query dsyevd A w Z0 = Throw \/
  exists w1 Z1, eigen_solve 0 query dsyevd A w Z0 = Ok (w1, Z1) /\ shape Z1 n n /\ eigen_solution n (ment A) w1 (ment Z1).
Proof. apply eigen_ok. Qed.

(* A nonzero info code always becomes an exception. *)
Theorem C61_failure_throws dsgesv (A B X : mat R) n m : shape A n n -> shape B n m ->
  (forall a b, snd (dsgesv n m a b) <> 0%Z) -> direct_solve 0 dsgesv A B X = Throw.
Proof.
  intros (Ar & Ac) HB Hf. unfold direct_solve. destruct HB as (Br & Bc). rewrite Ar, Bc.
  destruct (copy_in A n n (conj Ar Ac) (n * n)%nat) as (a & -> & _); [lia|]. cbn [bind].
  destruct (copy_in B n m (conj Br Bc) (n * m)%nat) as (b & -> & _); [lia|]. cbn [bind].
  specialize (Hf a b). destruct (dsgesv n m a b) as (x & info). cbn [snd] in Hf. unfold check_info.
  destruct (Z.eqb_spec info 0); [contradiction|reflexivity].
Qed.

(* A solver for two equations by Cramer's rule meets the contract, and on a non-symmetric system the wrapper
   returns the solution: storage order matters here. *)
Definition cramer (n m : nat) (a b : list R) : list R * Z :=
  match n, m with
  | 2%nat, 1%nat => let det := nth 0 a 0 * nth 3 a 0 - nth 2 a 0 * nth 1 a 0 in
      if Req_EM_T det 0 then ([0; 0], 1%Z)
      else ([(nth 3 a 0 * nth 0 b 0 - nth 2 a 0 * nth 1 b 0) / det; (nth 0 a 0 * nth 1 b 0 - nth 1 a 0 * nth 0 b 0) / det], 0%Z)
  | _, _ => (repeat 0 (n * m), 1%Z)
  end.
Example C61_witness : dsgesv_spec cramer /\
  exists Y, direct_solve 0 cramer (mkmat 2 2 (fun i j => if (i =? 1)%nat && (j =? 0)%nat then 0 else 1))
     (mkmat 2 1 (fun i _ => if (i =? 0)%nat then 5 else 3)) (mkmat 2 1 (fun _ _ => 0)) = Ok Y /\
     ment Y 0%nat 0%nat = 2 /\ ment Y 1%nat 0%nat = 3.
Proof.
  split.
  - intros n m a b La Lb. unfold cramer.
    assert (D : forall n' m' : nat, length (repeat 0 (n' * m')) = (n' * m')%nat /\ (1%Z = 0%Z ->
       forall i j, (i < n')%nat -> (j < m')%nat -> sumn n' (fun k => cm n' a i k * cm n' (repeat 0 (n' * m')) k j) = cm n' b i j))
      by (intros; rewrite repeat_length; split; [reflexivity|discriminate]).
    destruct n as [|[|[|n]]]; try apply D. destruct m as [|[|m]]; try apply D.
    destruct (Req_EM_T _ 0) as [E|E]; [split; [reflexivity|discriminate]|]. split; [reflexivity|]. intros _ i j Hi Hj.
    assert (j = 0)%nat by lia. subst j. unfold sumn, cm. cbn [seq map fold_right].
    destruct i as [|[|i]]; [| |lia]; cbn [Nat.add Nat.mul nth]; field; exact E.
  - unfold direct_solve. cbn -[Req_EM_T].
    destruct (Req_EM_T _ 0) as [E|E]; [exfalso; lra|]. eexists. split; [reflexivity|]. cbn. split; lra.
Qed.

Print Assumptions C61_direct_solve.
Print Assumptions C61_inverse.
Print Assumptions C61_cholesky.
Print Assumptions C61_eigen.
