(* Base.v - vocabulary shared by the models: outcomes, array access, array growth.
   Nothing here models a particular function of /repo. *)
From Coq Require Import ZArith List Lia Bool.
Import ListNotations.
Local Open Scope Z_scope.
#[global] Arguments Z.mul : simpl never.
#[global] Arguments Z.add : simpl never.
#[global] Arguments Z.sub : simpl never.
#[global] Arguments Z.of_nat : simpl never.
#[global] Arguments Z.div : simpl never.
#[global] Arguments Z.modulo : simpl never.

(* Result of running a piece of C++: a value, a thrown exception, or undefined behaviour. *)
Inductive outcome (A : Type) : Type :=
| Ok (a : A)
| Throw
| UB.
Arguments Ok {A} a.
Arguments Throw {A}.
Arguments UB {A}.

Definition bind {A B} (o : outcome A) (f : A -> outcome B) : outcome B :=
  match o with Ok a => f a | Throw => Throw | UB => UB end.

(* Unchecked array read a[i]: out of bounds is undefined behaviour. *)
Definition get {A} (l : list A) (i : Z) : outcome A :=
  if i <? 0 then UB
  else match nth_error l (Z.to_nat i) with Some a => Ok a | None => UB end.

Fixpoint upd {A} (l : list A) (i : nat) (v : A) : list A :=
  match l, i with
  | [], _ => []
  | _ :: t, O => v :: t
  | h :: t, S j => h :: upd t j v
  end.

(* Unchecked array write a[i] = v: out of bounds is undefined behaviour. *)
Definition set {A} (l : list A) (i : Z) (v : A) : outcome (list A) :=
  if (i <? 0) || (Z.of_nat (length l) <=? i) then UB else Ok (upd l (Z.to_nat i) v).

(* std::vector::resize(n): keeps a prefix, new elements are value-initialised to d. *)
Definition resize {A} (d : A) (l : list A) (n : Z) : list A :=
  firstn (Z.to_nat n) l ++ repeat d (Z.to_nat n - length l).

Definition INT_MAX : Z := 2147483647.
Definition INT_MIN : Z := -2147483648.

Lemma upd_length {A} (l : list A) i v : length (upd l i v) = length l.
Proof. revert i; induction l; destruct i; simpl; auto. Qed.

Lemma nth_error_upd_eq {A} (l : list A) i v :
  (i < length l)%nat -> nth_error (upd l i v) i = Some v.
Proof. revert i; induction l; destruct i; simpl; intros; try lia; auto. apply IHl; lia. Qed.

Lemma nth_error_upd_neq {A} (l : list A) i j v :
  i <> j -> nth_error (upd l i v) j = nth_error l j.
Proof. revert i j; induction l; destruct i, j; simpl; intros; try congruence; auto. Qed.

Lemma firstn_upd_ge {A} (l : list A) n i v :
  (n <= i)%nat -> firstn n (upd l i v) = firstn n l.
Proof.
  revert n i; induction l; destruct n, i; simpl; intros; try lia; auto.
  f_equal. apply IHl. lia.
Qed.

Lemma firstn_upd_snoc {A} (l : list A) i v :
  (i < length l)%nat -> firstn (S i) (upd l i v) = firstn i l ++ [v].
Proof.
  revert i; induction l; destruct i; simpl; intros; try lia; auto.
  f_equal. apply IHl. lia.
Qed.

Lemma resize_length {A} (d : A) l n : 0 <= n -> Z.of_nat (length (resize d l n)) = n.
Proof.
  intros. unfold resize. rewrite app_length, firstn_length, repeat_length.
  lia.
Qed.

Lemma firstn_resize {A} (d : A) l n m :
  (m <= length l)%nat -> (m <= Z.to_nat n)%nat -> firstn m (resize d l n) = firstn m l.
Proof.
  intros. unfold resize.
  rewrite firstn_app, firstn_firstn, Nat.min_l by lia.
  rewrite firstn_length.
  replace (m - Nat.min (Z.to_nat n) (length l))%nat with 0%nat by lia.
  simpl. now rewrite app_nil_r.
Qed.

Lemma get_firstn {A} (l : list A) (n : nat) (k : Z) :
  0 <= k < Z.of_nat n -> get (firstn n l) k = get l k.
Proof.
  intros. unfold get. destruct (k <? 0) eqn:E; auto.
  replace (nth_error (firstn n l) (Z.to_nat k)) with (nth_error l (Z.to_nat k)); auto.
  assert (Z.to_nat k < n)%nat as H1 by lia. revert H1. generalize (Z.to_nat k) as i. clear.
  revert n. induction l; destruct n, i; simpl; intros; try lia; auto.
  apply IHl; lia.
Qed.
