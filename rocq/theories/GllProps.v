(* GllProps.v - the Gauss-Lobatto points for the Legendre weight: symmetric, and the same for every eigenvalue solver (C60). *)
From Coq Require Import ZArith List Lia Bool Arith.
From Verif Require Import Base Loops Num JacobiModel JacobiSpec JacobiProofs JacobiOrthProofs JacobiQuadProofs JacobiExactProofs JacobiProps GllProofs.
From Coq Require Import Reals Lra.
Import ListNotations.
Local Open Scope R_scope.

Lemma points_gll G eps N eig : gamma_like G -> 0 <= eps -> 10 * eps <= 2 ->
  (2 <= N -> let J := quad_matrix (exact G) eps (0 + 1)%R (0 + 1)%R (N - 1) in eigen_solution N J (fst (eig N J)) (snd (eig N J)))%nat ->
  gll_points G (S N) (computeGaussLobottoPoints (exact G) eig eps 0 0 (S N)).
Proof.
  intros HG H0 H1 HE. destruct (C60_gauss_lobatto G 0 0 eps N eig) as (A & B & C & D & E); auto; try lra. split; [exact A|]. split; [exact B|]. split; [exact C|]. split; [exact D|exact E].
Qed.

(* the points are symmetric about 0 *)
Theorem C60_symmetric G eps N eig : gamma_like G -> 0 <= eps -> 10 * eps <= 2 ->
  (2 <= N -> let J := quad_matrix (exact G) eps (0 + 1)%R (0 + 1)%R (N - 1) in eigen_solution N J (fst (eig N J)) (snd (eig N J)))%nat ->
  let xs := computeGaussLobottoPoints (exact G) eig eps 0 0 (S N) in forall i, (i <= S N)%nat -> nth (S N - i) xs 0 = - nth i xs 0.
Proof. intros HG H0 H1 HE xs i Hi. apply (gll_sym G HG (S N) xs); [lia|apply points_gll; assumption|exact Hi]. Qed.
(* they are the only increasing points from -1 to 1 with the inner ones at the zeros of the derivative, and do not depend on the
   eigenvalue solver or on eps *)
Theorem C60_determined G eps N eig : gamma_like G -> 0 <= eps -> 10 * eps <= 2 ->
  (2 <= N -> let J := quad_matrix (exact G) eps (0 + 1)%R (0 + 1)%R (N - 1) in eigen_solution N J (fst (eig N J)) (snd (eig N J)))%nat ->
  let xs := computeGaussLobottoPoints (exact G) eig eps 0 0 (S N) in
  (forall g, length g = S (S N) -> nth 0 g 0 = -1 -> nth (S N) g 0 = 1 -> (forall i, (i < S N)%nat -> nth i g 0 < nth (S i) g 0) ->
     (forall i, (0 < i < S N)%nat -> computeGradJacobi (exact G) [nth i g 0] 0 0 (S N) = [0]) -> g = xs) /\
  (forall eps' eig', 0 <= eps' -> 10 * eps' <= 2 ->
     (2 <= N -> let J := quad_matrix (exact G) eps' (0 + 1)%R (0 + 1)%R (N - 1) in eigen_solution N J (fst (eig' N J)) (snd (eig' N J)))%nat ->
     computeGaussLobottoPoints (exact G) eig' eps' 0 0 (S N) = xs).
Proof.
  intros HG H0 H1 HE xs. assert (P : gll_points G (S N) xs) by (apply points_gll; assumption). split.
  - intros g A B C D E. apply (gll_unique G HG (S N)); [lia| |exact P]. split; [exact A|]. split; [exact B|]. split; [exact C|]. split; [exact D|exact E].
  - intros eps' eig' A B C. apply (gll_unique G HG (S N)); [lia|apply points_gll; assumption|exact P].
Qed.
(* order 2: the midpoint. The hypotheses hold for every solver, which is not called. *)
Example C60_order2_witness eig : computeGaussLobottoPoints (exact gwit) eig 0 0 0 2 = [-1; 0; 1].
Proof.
  assert (HE : (2 <= 1 -> let J := quad_matrix (exact gwit) 0%R (0 + 1)%R (0 + 1)%R (1 - 1) in eigen_solution 1 J (fst (eig 1%nat J)) (snd (eig 1%nat J)))%nat) by lia.
  pose proof (C60_symmetric gwit 0 1 eig gwit_ok ltac:(lra) ltac:(lra) HE 1%nat ltac:(lia)) as H. destruct (points_gll gwit 0 1 eig gwit_ok ltac:(lra) ltac:(lra) HE) as (A & B & C & _).
  set (xs := computeGaussLobottoPoints _ _ _ _ _ _) in *. destruct xs as [|p [|q [|r [|]]]]; cbn in *; try lia. f_equal; [lra|]. f_equal; [lra|]. f_equal. lra.
Qed.
Print Assumptions C60_symmetric. Print Assumptions C60_determined. Print Assumptions C60_order2_witness.
