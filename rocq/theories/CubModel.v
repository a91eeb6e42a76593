(* CubModel.v - include/TriangleCubatureRules.hpp: the rule arrays and their accessors.
   Entries have an arbitrary type A; lit z is the value the compiler gives the literal z*10^-15,
   sub is the subtraction of A, junk the contents of freshly allocated array storage. *)
From Coq Require Import ZArith List Lia Bool.
From Verif Require Import Base CubTable.
Import ListNotations.
Local Open Scope Z_scope.

Section Cub.
Context {A : Type} (lit : Z -> A) (sub : A -> A -> A) (junk : nat -> A).

Definition cell_value (c : cell) : A := match c with L z => lit z | D z1 z2 => sub (lit z1) (lit z2) end.

(* A real_matrix_type with 3 columns: number of rows, entries in row-major order. *)
Record rule := mkrule { nrows : nat; entries : list A }.

(* real_matrix_type(n, 3) filled by a comma initialiser (blitz ListInitializer): values go into
   consecutive entries without any check; entries not listed keep what the storage held, surplus
   values are written past the end. *)
Definition list_init (n : nat) (vals : list A) : outcome rule :=
  if (3 * n <? List.length vals)%nat then UB
  else Ok (mkrule n (vals ++ map junk (seq (List.length vals) (3 * n - List.length vals)))).

(* The constructor: CubatureRules_ after the last push_back. Entry 3 is a copy of entry 2, which
   holds the same values. include/TriangleCubatureRules.hpp:20-1805 *)
Fixpoint build_rules (ts : list (nat * list cell)) : outcome (list rule) :=
  match ts with
  | [] => Ok []
  | (n, cs) :: ts => bind (list_init n (map cell_value cs)) (fun r => bind (build_rules ts) (fun rs => Ok (r :: rs)))
  end.

(* CubatureRules_[NCubature_ - 1], unchecked. 1811, 1818, 1825 *)
Definition the_rule (NCubature : Z) : outcome rule := bind (build_rules tables) (fun rs => get rs (NCubature - 1)).

(* include/TriangleCubatureRules.hpp:1808 *)
Definition NumCubaturePoints (NCubature : Z) : outcome nat := bind (the_rule NCubature) (fun r => Ok (nrows r)).

(* rule(Range::all(), c): one column. *)
Definition column (c : nat) (r : rule) : outcome (list A) :=
  (fix go (i n : nat) : outcome (list A) :=
     match n with
     | O => Ok []
     | S n => match nth_error (entries r) (3 * i + c) with
              | Some v => bind (go (S i) n) (fun vs => Ok (v :: vs))
              | None => UB
              end
     end) 0%nat (nrows r).

(* 1810-1829 *)
Definition rCoord (NCubature : Z) : outcome (list A) := bind (the_rule NCubature) (column 0).
Definition sCoord (NCubature : Z) : outcome (list A) := bind (the_rule NCubature) (column 1).
Definition weights (NCubature : Z) : outcome (list A) := bind (the_rule NCubature) (column 2).
End Cub.
Arguments rule : clear implicits.
