(* Loops.v - C-style loops and dense matrices used by several models.
   Nothing here models a particular function of /repo. *)
From Coq Require Import ZArith List Lia Bool.
From Verif Require Import Base.
Import ListNotations.
Local Open Scope Z_scope.

(* for (i = lo; i < lo + n; ++i) s = body(i, s); stops at the first throw or undefined step. *)
Fixpoint for_from {S} (lo n : nat) (body : nat -> S -> outcome S) (s : S) : outcome S :=
  match n with
  | O => Ok s
  | Datatypes.S n' => bind (body lo s) (for_from (Datatypes.S lo) n' body)
  end.
Definition for_ {S} (n : nat) (body : nat -> S -> outcome S) (s : S) : outcome S :=
  for_from 0 n body s.

Lemma for_from_inv {S} (P : nat -> S -> Prop) n : forall lo body s,
  P lo s ->
  (forall i s, (lo <= i < lo + n)%nat -> P i s -> exists s', body i s = Ok s' /\ P (Datatypes.S i) s') ->
  exists s', for_from lo n body s = Ok s' /\ P (lo + n)%nat s'.
Proof.
  induction n; intros lo body s H0 Hs; simpl.
  - exists s. rewrite Nat.add_0_r. auto.
  - destruct (Hs lo s) as (s1 & E & P1); [lia|auto|]. rewrite E. simpl.
    destruct (IHn (Datatypes.S lo) body s1 P1) as (s2 & E2 & P2).
    { intros. apply Hs; [lia|auto]. }
    exists s2. split; auto. now replace (lo + Datatypes.S n)%nat with (Datatypes.S lo + n)%nat by lia.
Qed.

Lemma for_inv {S} (P : nat -> S -> Prop) n body s :
  P 0%nat s ->
  (forall i s, (i < n)%nat -> P i s -> exists s', body i s = Ok s' /\ P (Datatypes.S i) s') ->
  exists s', for_ n body s = Ok s' /\ P n s'.
Proof.
  intros H0 Hs. destruct (for_from_inv P n 0 body s H0) as (s' & E & Hp).
  { intros. apply Hs; [lia|auto]. }
  exists s'. auto.
Qed.

(* A dense matrix: its shape and its entries. Entries outside the shape are never consulted:
   every access in a model goes through mget/mset, which make it undefined behaviour. *)
Record mat (T : Type) := mkmat { mrows : nat; mcols : nat; ment : nat -> nat -> T }.
Arguments mkmat {T}. Arguments mrows {T}. Arguments mcols {T}. Arguments ment {T}.

Definition inb {T} (m : mat T) (i j : nat) : bool := (i <? mrows m)%nat && (j <? mcols m)%nat.
Definition mget {T} (m : mat T) (i j : nat) : outcome T :=
  if inb m i j then Ok (ment m i j) else UB.
Definition mset {T} (m : mat T) (i j : nat) (v : T) : outcome (mat T) :=
  if inb m i j
  then Ok (mkmat (mrows m) (mcols m)
             (fun a b => if (a =? i)%nat && (b =? j)%nat then v else ment m a b))
  else UB.

(* Same shape and same entries inside the shape. *)
Definition meq {T} (a b : mat T) : Prop :=
  mrows a = mrows b /\ mcols a = mcols b /\
  forall i j, (i < mrows a)%nat -> (j < mcols a)%nat -> ment a i j = ment b i j.

Lemma inb_true {T} (m : mat T) i j : (i < mrows m)%nat -> (j < mcols m)%nat -> inb m i j = true.
Proof. intros. unfold inb. apply andb_true_iff. rewrite !Nat.ltb_lt. auto. Qed.

Lemma mget_ok {T} (m : mat T) i j : (i < mrows m)%nat -> (j < mcols m)%nat -> mget m i j = Ok (ment m i j).
Proof. intros. unfold mget. now rewrite inb_true. Qed.

(* Access with nat indices. *)
Definition getn {A} (l : list A) (i : nat) : outcome A :=
  match nth_error l i with Some a => Ok a | None => UB end.
Definition setn {A} (l : list A) (i : nat) (v : A) : outcome (list A) :=
  if (i <? length l)%nat then Ok (upd l i v) else UB.
