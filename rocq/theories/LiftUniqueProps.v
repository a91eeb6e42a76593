(* LiftUniqueProps.v - the columns of the 1D lift matrix are determined by what C62 says of them. *)
From Coq Require Import ZArith List Lia Bool Arith.
From Verif Require Import Base Loops Num BlitzModel BlitzProofs CscModel JacobiModel JacobiSpec JacobiProofs JacobiOrthProofs JacobiQuadProofs JacobiExactProofs JacobiProps
  DenseModel DenseSpec DenseProps MeshModel MeshProofs Nodes1DModel Nodes1DSpec Nodes1DProofs Nodes1DExactProofs DblProofs Nodes1DProps TriProofs TriBasisProofs Line1DProofs Poisson1DProofs.
From Coq Require Import Reals Lra.
Import ListNotations.
Local Open Scope R_scope.

(* l represents evaluation at e on the polynomials with at most n coefficients *)
Definition represents (n : nat) (e : R) (l : list R) : Prop :=
  (length l <= n)%nat /\ forall cs, (length cs <= n)%nat -> integral_is (fun x => peval l x * peval cs x) (-1) 1 (peval cs e).
Lemma represents_unique n e l l' : represents (S n) e l -> represents (S n) e l' -> forall x, peval l x = peval l' x.
Proof.
  intros (L & H) (L' & H') x. set (d := padd l (pscal (-1) l')). assert (Ld : (length d <= S n)%nat) by (unfold d; rewrite padd_len, pscal_len; lia).
  assert (Z : integral_is (fun x => peval d x * peval d x) (-1) 1 0).
  { replace 0 with (peval d e + -1 * peval d e) by ring. apply (integral_ext (fun x => peval l x * peval d x + -1 * (peval l' x * peval d x))).
    - intro y. unfold d. rewrite padd_eval, pscal_eval. ring.
    - apply integral_plus; [apply H, Ld|apply integral_scal, H', Ld]. }
  assert (E : peval d x = 0) by (apply (zero_square n (fun x => peval d x)); [exists d; split; [exact Ld|reflexivity]|exact Z]).
  unfold d in E. rewrite padd_eval, pscal_eval in E. lra.
Qed.

Section Unique.
Variables (G : R -> R) (N K : nat) (a b eps tol : R).
Variables (solve : mat R -> mat R -> mat R -> outcome (mat R)) (inverse : mat R -> mat R -> outcome (mat R))
  (eig : nat -> (nat -> nat -> R) -> list R * (nat -> nat -> R)) (junk : nat -> nat -> R)
  (jk : nat * dbl) (jp ji : nat -> nat) (jx : nat -> dbl) (junkn : nat -> nat).

(* whatever polynomial of at most the order represents evaluation at an end, the lift matrix holds its nodal values *)
Theorem C62_unique n : sound1D G N K eps tol solve inverse eig ->
  buildNodes1D (exact G) solve inverse eig eps junk tol (buildConnectivity1D jk jp ji jx) junkn (S N) K a b = Ok n ->
  forall f ls, (f < 2)%nat -> (length ls <= S (S N))%nat ->
    (forall cs, (length cs <= S (S N))%nat -> integral_is (fun x => peval ls x * peval cs x) (-1) 1 (peval cs (if (f =? 0)%nat then -1 else 1))) ->
    forall i, (i < S (S N))%nat -> ment (n_Lift n) i f = peval ls (nth i (n_r n) 0).
Proof.
  intros HS E f ls Hf Hl HI i Hi. destruct (C62_lift_line G N K a b eps tol solve inverse eig junk jk jp ji jx junkn HS) as [Q|(n' & E' & _ & H)]; [congruence|].
  assert (n' = n) by congruence. subst n'. destruct (H f Hf) as (l & Ll & El & Il). rewrite (El i Hi).
  apply (represents_unique (S N) (if (f =? 0)%nat then -1 else 1)); split; auto. lia.
Qed.
End Unique.

(* the matrix for linear elements *)
Theorem C62_linear G K a b eps tol solve inverse eig junk jk jp ji jx junkn n : sound1D G 0 K eps tol solve inverse eig ->
  buildNodes1D (exact G) solve inverse eig eps junk tol (buildConnectivity1D jk jp ji jx) junkn 1 K a b = Ok n ->
  ment (n_Lift n) 0 0 = 2 /\ ment (n_Lift n) 0 1 = -1 /\ ment (n_Lift n) 1 0 = -1 /\ ment (n_Lift n) 1 1 = 2.
Proof.
  intros HS E. pose proof (sound_points _ _ _ _ _ _ _ _ HS) as (_ & R0 & R1 & _).
  destruct (exact_nodes G 0 K a b eps tol solve inverse eig junk jk jp ji jx junkn HS) as [Q|(n' & E' & Er & _)]; [congruence|]. assert (n' = n) by congruence. subst n'. rewrite <- Er in R0, R1.
  assert (I : forall c e cs, c * e = 3 / 2 -> e * e = 1 -> (length cs <= 2)%nat -> integral_is (fun x => peval [1 / 2; c] x * peval cs x) (-1) 1 (peval cs e)).
  { intros c e cs Hc He Hl. set (c0 := nth 0 cs 0). set (c1 := nth 1 cs 0). assert (Ec : forall x, peval cs x = c0 + c1 * x).
    { intro x. unfold c0, c1. destruct cs as [|p [|q [|]]]; cbn [peval nth length] in *; try lia; ring. }
    assert (Hce : c = 3 / 2 * e) by (replace c with (c * (e * e)) by (rewrite He; ring); rewrite <- Rmult_assoc, Hc; ring).
    apply (integral_ext (dpeval [0; c0 / 2; (c1 / 2 + c * c0) / 2; c * c1 / 3])).
    - intro x. rewrite Ec. cbn [peval dpeval]. field.
    - replace (peval cs e) with (peval [0; c0 / 2; (c1 / 2 + c * c0) / 2; c * c1 / 3] 1 - peval [0; c0 / 2; (c1 / 2 + c * c0) / 2; c * c1 / 3] (-1)); [apply integral_deriv|].
      rewrite Ec, Hce. cbn [peval]. field. }
  assert (U : forall f i c e, (f < 2)%nat -> (i < 2)%nat -> (if (f =? 0)%nat then -1 else 1) = e -> c * e = 3 / 2 -> e * e = 1 -> ment (n_Lift n) i f = peval [1 / 2; c] (nth i (n_r n) 0)).
  { intros f i c e Hf Hi He Hc H1. apply (C62_unique G 0 K a b eps tol solve inverse eig junk jk jp ji jx junkn n HS E); [exact Hf|cbn; lia| |exact Hi]. intros cs Hcs. rewrite He. apply I; assumption. }
  rewrite (U 0%nat 0%nat (-3 / 2) (-1)), (U 1%nat 0%nat (3 / 2) 1), (U 0%nat 1%nat (-3 / 2) (-1)), (U 1%nat 1%nat (3 / 2) 1) by (try lia; try reflexivity; lra). rewrite R0, R1. cbn [peval]. repeat split; field.
Qed.
(* C26_witness gives a run with linear elements *)
Example C62_linear_witness : exists n, buildNodes1D (exact gwit) solve2 inverse2 (fun n (J : nat -> nat -> R) => (@nil R, J)) 0 (fun _ _ => 0) (1 / 10)
    (buildConnectivity1D (0%nat, d_one) (fun _ => 0%nat) (fun _ => 0%nat) (fun _ => d_one)) (fun _ => 7%nat) 1 3 0 1 = Ok n /\ ment (n_Lift n) 0 0 = 2 /\ ment (n_Lift n) 1 0 = -1.
Proof.
  destruct C26_witness as (HS & n & E). exists n. split; [exact E|]. destruct (C62_linear _ _ _ _ _ _ _ _ _ _ _ _ _ _ _ n HS E) as (H1 & _ & H2 & _). auto.
Qed.
Print Assumptions C62_unique. Print Assumptions C62_linear. Print Assumptions C62_linear_witness.
