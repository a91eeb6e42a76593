(* Nodes1DTotalProofs.v - the Vandermonde matrix of distinct points is invertible. *)
From Coq Require Import ZArith List Lia Bool Arith.
From Verif Require Import Base Loops Num JacobiModel JacobiSpec JacobiProofs JacobiOrthProofs JacobiQuadProofs JacobiExactProofs
  DenseSpec Nodes1DModel Nodes1DSpec Nodes1DExactProofs GllProofs TriBasisProofs TriProofs TriLiftProofs TriOpProofs TriDGProofs QuadInterpProofs Line1DProofs Nodes1DTotalSpec.
From Coq Require Import Reals Lra.
Import ListNotations.
Local Open Scope R_scope.

Section V.
Variable G : R -> R.
Hypothesis HG : gamma_like G.
Local Notation P k x := (jac G 0 0 k x).

Lemma vander_invertible N r : length r = S N -> NoDup r -> exists B, inverse_of (S N) (vandermonde1D (exact G) r (S N)) B.
Proof.
  intros Lr Nd.
  destruct (finite_choice (fun _ => 0) (S N) (fun j c => forall i, (i < S N)%nat -> sumn (S N) (fun k => c k * P k (nth i r 0)) = if Nat.eqb i j then 1 else 0)) as (c & Hc).
  { intros j Hj. destruct (newton r Nd (fun i => if Nat.eqb i j then 1 else 0)) as (cs & L & Hcs). rewrite Lr in *.
    destruct (modal1 G HG N (peval cs)) as (c & Hm); [exists cs; split; [exact L|reflexivity]|]. exists c. intros i Hi. rewrite <- Hm. apply Hcs. exact Hi. }
  exists (fun l j => c j l). intros i j Hi Hj. split.
  - rewrite <- (Hc j Hj i Hi). apply sumn_ext. intros l Hl. rewrite (vander_ent G HG) by lia. ring.
  - set (d := fun l => sumn (S N) (fun m => c m l * P j (nth m r 0))).
    assert (HD : forall x, P j x = sumn (S N) (fun l => d l * P l x)).
    { destruct (P_poly G HG j) as (cs & Lc & _ & Ec & _). destruct (modes_poly G HG (S N) d) as (ds & Ld & Ed).
      intro x. rewrite <- Ed. rewrite Ec.
      pose proof (too_many_roots (S N) (padd cs (pscal (-1) ds)) r) as HR. rewrite padd_len, pscal_len in HR.
      specialize (HR ltac:(lia) Nd Lr). assert (Hz : forall y, In y r -> peval (padd cs (pscal (-1) ds)) y = 0).
      { intros y Hy. apply (In_nth _ _ 0) in Hy. destruct Hy as (q & Hq & <-). rewrite Lr in Hq. rewrite padd_eval, pscal_eval, <- Ec, Ed. unfold d.
        rewrite (sumn_ext (S N) (fun l => _ * P l _) (fun l => sumn (S N) (fun m => c m l * P j (nth m r 0) * P l (nth q r 0)))) by (intros; rewrite (Rmult_comm (sumn _ _)), <- sumn_scal; apply sumn_ext; intros; ring).
        rewrite (sumn_swap (S N) (S N)). rewrite (sumn_ext (S N) _ (fun m => (if Nat.eqb q m then 1 else 0) * P j (nth m r 0))).
        - rewrite (sumn_pick (S N) _ q Hq); [rewrite Nat.eqb_refl; ring|]. intros m _ Hm. destruct (Nat.eqb_spec q m); [congruence|ring].
        - intros m Hm. rewrite <- (Hc m Hm q Hq). rewrite (Rmult_comm (sumn _ _)), <- sumn_scal. apply sumn_ext. intros; ring. }
      specialize (HR Hz x). rewrite padd_eval, pscal_eval in HR. lra. }
    assert (E : forall a x, (a < S N)%nat -> P a x = sumn (S N) (fun l => delta a l * P l x)) by (intros a x Ha; rewrite (sumn_delta (S N) a (fun l => P l x) Ha); reflexivity).
    pose proof (parseval1 G HG N (fun x => P j x) (fun x => P i x) d (delta i) HD (fun x => E i x Hi)) as I1.
    pose proof (parseval1 G HG N (fun x => P j x) (fun x => P i x) (delta j) (delta i) (fun x => E j x Hj) (fun x => E i x Hi)) as I2.
    pose proof (integral_unique _ _ _ _ _ I1 I2) as I. rewrite (sumn_ext (S N) (fun k => d k * delta i k) (fun k => delta i k * d k)) in I by (intros; ring).
    rewrite (sumn_delta (S N) i d Hi), (sumn_delta (S N) j (delta i) Hj) in I. unfold d, delta in I. rewrite <- I. apply sumn_ext. intros m Hm. rewrite (vander_ent G HG) by lia. reflexivity.
Qed.

Lemma trans_invertible n A B : shape A n n -> inverse_of n A B -> inverse_of n (mtrans A) (fun i j => B j i).
Proof.
  intros SA H i j Hi Hj. cbn [mtrans ment]. destruct (H j i Hj Hi) as (H1 & H2). rewrite (Nat.eqb_sym i j). split.
  - rewrite <- H2. apply sumn_ext. intros; ring.
  - rewrite <- H1. apply sumn_ext. intros; ring.
Qed.
End V.
