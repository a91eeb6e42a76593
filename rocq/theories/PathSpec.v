(* PathSpec.v - decimal numerals and byte-wise string order, independent of the model. *)
From Coq Require Import ZArith List Ascii.
Import ListNotations.
Local Open Scope Z_scope.

Definition is_digit (c : ascii) : Prop := (48 <= nat_of_ascii c <= 57)%nat.
Definition digit_value (c : ascii) : Z := Z.of_nat (nat_of_ascii c) - 48.
Definition numeral_value (s : list ascii) : Z := fold_left (fun a c => 10 * a + digit_value c) s 0.

(* The order in which a directory listing sorted by bytes shows two names. *)
Fixpoint byte_lt (s t : list ascii) : Prop :=
  match s, t with
  | [], [] => False
  | [], _ :: _ => True
  | _ :: _, [] => False
  | c :: s', d :: t' => (nat_of_ascii c < nat_of_ascii d)%nat \/ (c = d /\ byte_lt s' t')
  end.

(* p without the separator d at its end / at its beginning, if it has one there. *)
Definition without_trailing (d : ascii) (p q : list ascii) : Prop :=
  p = q ++ [d] \/ (p = q /\ forall q', p <> q' ++ [d]).
Definition without_leading (d : ascii) (p q : list ascii) : Prop :=
  p = d :: q \/ (p = q /\ forall q', p <> d :: q').

(* pat occurs somewhere in s. *)
Definition occurs (pat s : list ascii) : Prop := exists a b, s = a ++ pat ++ b.
