(* TripletSpec.v - what a client of SparseTriplet expects, independent of arrays and capacity. *)
From Coq Require Import ZArith List Bool.
From Verif Require Import Base TripletModel.
Import ListNotations.
Local Open Scope Z_scope.

Section Spec.
Variable T : Type.

(* A sparse triplet is a sequence of (row, column, value) entries. *)
Notation entry := (Z * Z * T)%type.

(* Replace the k-th entry, if there is one. *)
Definition change (es : list entry) (k : Z) (f : entry -> entry) : list entry :=
  map (fun '(j, e) => if Z.eqb (Z.of_nat j) k then f e else e) (combine (seq 0 (length es)) es).

(* Effect of one call that ended normally; a call that threw has no effect. *)
Definition effect (es : list entry) (o : op T) : list entry :=
  match o with
  | Insert r c v => es ++ [(r, c, v)]
  | Expand _ => es
  | Clear => []
  | SetRow k r => change es k (fun '(_, c, v) => (r, c, v))
  | SetCol k c => change es k (fun '(r, _, v) => (r, c, v))
  | SetElem k v => change es k (fun '(r, c, _) => (r, c, v))
  end.

Fixpoint expected (es : list entry) (os : list (op T)) (ends : list ended) : list entry :=
  match os, ends with
  | o :: os', Done :: ends' => expected (effect es o) os' ends'
  | _ :: os', _ :: ends' => expected es os' ends'
  | _, _ => es
  end.

(* The object presents exactly these entries through nnz/row/col/elem. *)
Definition presents (s : triplet T) (es : list entry) : Prop :=
  nnz_ s = Z.of_nat (length es) /\
  forall (k : nat) r c v, nth_error es k = Some (r, c, v) ->
    row s (Z.of_nat k) = Ok r /\ col s (Z.of_nat k) = Ok c /\ elem s (Z.of_nat k) = Ok v.

(* Objects a client can obtain: constructed with some dimensions and capacity, then used
   through any history of calls in which no out-of-range reference was written. *)
Definition reachable (z : T) (s : triplet T) : Prop :=
  exists rows cols cap s0 os ends,
    ctor T z rows cols cap = Ok s0 /\ run T z s0 os = (s, ends) /\ ~ In Undef ends.

(* Dense matrices: the entries above tolerance, row by row and in each row left to right. *)
Definition above (big : T -> bool) (m : list (list T)) : list entry :=
  flat_map (fun '(i, r) =>
    flat_map (fun '(j, x) => if big x then [(Z.of_nat i, Z.of_nat j, x)] else [])
             (combine (seq 0 (length r)) r))
  (combine (seq 0 (length m)) m).

Definition row_major_lt (a b : entry) : Prop :=
  let '(i, j, _) := a in let '(i', j', _) := b in i < i' \/ (i = i' /\ j < j').

Definition is_insert (o : op T) : Prop := match o with Insert _ _ _ => True | _ => False end.

End Spec.
Arguments expected {T}. Arguments presents {T}. Arguments reachable {T}. Arguments above {T}.
Arguments is_insert {T}. Arguments effect {T}. Arguments change {T}.
