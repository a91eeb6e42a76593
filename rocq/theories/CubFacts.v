(* CubFacts.v - the check of CubCheck.v run on the tables of the header. *)
From Coq Require Import ZArith List Lia Bool.
From Verif Require Import CubTable CubCheck.
Import ListNotations.

Definition good_orders : list nat := [1; 2] ++ seq 5 24.
Definition order_ok (n : nat) : bool :=
  match nth_error tables (n - 1) with Some e => entry_ok n e (n <? 28) | None => false end.

Lemma orders_ok : forallb order_ok good_orders = true.
Proof. vm_compute. reflexivity. Qed.

Lemma order_entry n : (1 <= n <= 28)%nat -> n <> 3%nat -> n <> 4%nat ->
  exists e, nth_error tables (n - 1) = Some e /\ entry_ok n e (n <? 28) = true.
Proof.
  intros Hn H3 H4. assert (I : In n good_orders).
  { unfold good_orders. apply in_or_app. destruct (Nat.le_gt_cases 5 n); [right; apply in_seq; lia|left; cbn; lia]. }
  pose proof (proj1 (forallb_forall order_ok good_orders) orders_ok n I) as H. unfold order_ok in H.
  destruct (nth_error tables (n - 1)) as [e|]; [|discriminate]. exists e. split; [reflexivity|exact H].
Qed.
