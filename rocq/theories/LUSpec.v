(* LUSpec.v - what a client of LUSolver may rely on, read off the history of calls alone.
   Histories are lists of operations, most recent first. *)
From Coq Require Import ZArith List Bool.
From Verif Require Import LUModel.
Import ListNotations.
Local Open Scope Z_scope.

Section LUSpec.
Context {M V : Type} (rows cols : M -> Z).
Notation op := (op M V).

(* Contents of matrix object m. *)
Fixpoint matrix_now (past : list op) (m : nat) : option M :=
  match past with
  | [] => None
  | SetMat m' a :: past => if Nat.eqb m m' then Some a else matrix_now past m
  | DropMat m' :: past => if Nat.eqb m m' then None else matrix_now past m
  | _ :: past => matrix_now past m
  end.

Fixpoint alive (past : list op) (i : nat) : bool :=
  match past with
  | [] => false
  | New j :: past => Nat.eqb i j || alive past i
  | Destroy j :: past => negb (Nat.eqb i j) && alive past i
  | _ :: past => alive past i
  end.

Definition square (a : M) : bool := rows a =? cols a.

(* The last square matrix handed to solver i's factorize (object, contents at that time) and
   whether both library calls succeeded. *)
Fixpoint registered (past : list op) (i : nat) : option (nat * M * bool) :=
  match past with
  | [] => None
  | New j :: past | Destroy j :: past => if Nat.eqb i j then None else registered past i
  | Factorize j m st1 st2 :: past =>
      if Nat.eqb i j then
        match matrix_now past m with
        | Some a => if square a then Some (m, a, is_ok st1 && is_ok st2) else registered past i
        | None => registered past i
        end
      else registered past i
  | _ :: past => registered past i
  end.

(* The rules a client has to follow: solvers are used between construction and destruction and not
   copied; a matrix given to factorize exists, and exists unchanged when solve is called. *)
Definition legal_op (past : list op) (o : op) : Prop :=
  match o with
  | New i => alive past i = false
  | Factorize i m _ _ => alive past i = true /\ matrix_now past m <> None
  | Solve i _ _ _ => alive past i = true /\
      forall m a ok, registered past i = Some (m, a, ok) -> matrix_now past m = Some a
  | Destroy i => alive past i = true
  | Copy _ _ => False
  | SetMat _ _ | DropMat _ => True
  end.
Fixpoint legal (past : list op) : Prop :=
  match past with [] => True | o :: past => legal_op past o /\ legal past end.

(* What each call answers. *)
Definition answer (usolve : M -> M -> list V -> Base.outcome (list V)) (past : list op) (o : op) (r : result V) : Prop :=
  match o with
  | Factorize i m st1 st2 => exists a, matrix_now past m = Some a /\
      (r = Done <-> square a = true /\ st1 = UOK /\ st2 = UOK) /\ (r = Done \/ r = Threw)
  | Solve i rhs soln st =>
      (exists m a x, registered past i = Some (m, a, true) /\ rows a <= Z.of_nat (List.length rhs) /\
         rows a <= Z.of_nat (List.length soln) /\ st = UOK /\
         usolve a a rhs = Base.Ok x /\ r = Solved (x ++ skipn (List.length x) soln)) \/
      (r = Threw /\ forall m a, registered past i = Some (m, a, true) -> rows a <= Z.of_nat (List.length rhs) ->
         rows a <= Z.of_nat (List.length soln) -> st <> UOK)
  | _ => r = Done
  end.

(* Answers of a whole history, oldest first. *)
Fixpoint answers usolve (past : list op) (ops : list op) (rs : list (result V)) : Prop :=
  match ops, rs with
  | [], [] => True
  | o :: ops, r :: rs => answer usolve past o r /\ answers usolve (o :: past) ops rs
  | _, _ => False
  end.

(* The library solves with a factorisation and the very matrix it was computed from. *)
Definition library_ok (usolve : M -> M -> list V -> Base.outcome (list V)) (solves : M -> list V -> list V -> Prop) : Prop :=
  forall a rhs, rows a = cols a -> rows a <= Z.of_nat (List.length rhs) ->
    exists x, usolve a a rhs = Base.Ok x /\ Z.of_nat (List.length x) = rows a /\ solves a rhs x.
End LUSpec.
