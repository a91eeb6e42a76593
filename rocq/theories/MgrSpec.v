(* MgrSpec.v - what vertex and element files hold, and what is asked of METIS. *)
From Coq Require Import ZArith List Bool Ascii.
From Verif Require Import Base Loops CsvModel CsvSpec.
Import ListNotations.
Local Open Scope nat_scope.

Definition blanks : str := ["009"; " "]%char.    (* tab, space *)

(* The text is a table of nr rows and nc columns of fields separated by blanks, with these values row after row. *)
Definition is_table {V} (k : kind V) (t : str) (nr : nat) (nc : Z) (data : list V) : Prop := holds k t 0%Z blanks nr nc data.

(* A row that has nc fields, all of them readable. *)
Definition good_row {V} (k : kind V) (nc : Z) (row : list str) : Prop :=
  Z.of_nat (length row) = nc /\ exists vals, Forall2 (understood k) row vals.
(* The text has exactly nr good rows before its first bad one; nc is the number of fields of its first row. *)
Definition breaks_off {V} (k : kind V) (t : str) (nr : nat) (nc : Z) : Prop :=
  exists ls rows1 row rows2, lines_of t ls /\ rows_of blanks ls (rows1 ++ row :: rows2) /\
    Forall (good_row k nc) rows1 /\ ~ good_row k nc row /\ nr = length rows1 /\
    Z.of_nat (length (hd row rows1)) = nc.

(* The rows of a table with w columns stored row after row. *)
Fixpoint table_rows {T} (w n : nat) (l : list T) : list (list T) :=
  match n with O => [] | S n' => firstn w l :: table_rows w n' (skipn w l) end.

(* How METIS reads its arguments: element i has the vertices eind[eptr[i]] ... eind[eptr[i+1] - 1]. *)
Definition metis_element (eptr eind : list Z) (i : nat) (vs : list Z) : Prop :=
  exists a b, nth_error eptr i = Some a /\ nth_error eptr (S i) = Some b /\ (0 <= a <= b)%Z /\ (b <= Z.of_nat (length eind))%Z /\
    vs = firstn (Z.to_nat (b - a)) (skipn (Z.to_nat a) eind).
Definition metis_mesh (ne nn : nat) (eptr eind : list Z) (els : list (list Z)) : Prop :=
  length els = ne /\ (forall i vs, nth_error els i = Some vs -> metis_element eptr eind i vs) /\
  (forall v, In v eind -> (0 <= v < Z.of_nat nn)%Z).
(* What METIS promises: on a well-formed mesh and arrays of the right sizes it returns, keeps inside the arrays, and if it
   reports success (1) the result has the property P of good partitions. P is left open. *)
Definition metis_keeps (metis : nat -> nat -> list Z -> list Z -> Z -> list Z -> list Z -> outcome (Z * list Z * list Z))
    (P : list (list Z) -> nat -> Z -> list Z -> list Z -> Prop) : Prop :=
  forall ne nn eptr eind els n ep np, metis_mesh ne nn eptr eind els -> (1 <= n)%Z -> length ep = ne -> length np = nn ->
  exists code ep' np', metis ne nn eptr eind n ep np = Ok (code, ep', np') /\ length ep' = ne /\ length np' = nn /\
    (code = 1%Z -> P els nn n ep' np').
