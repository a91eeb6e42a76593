(* LUModel.v - src/LUSolver.cpp and include/LUSolver.hpp: the life cycle of the UMFPACK handles.
   UMFPACK itself is not modelled: the outcome of each library call is an argument of the
   operation that makes it (any schedule of outcomes is covered), and the numbers it computes are
   the function usolve. Matrices are an arbitrary type M with a number of rows and columns. *)
From Coq Require Import ZArith List Lia Bool.
From Verif Require Import Base.
Import ListNotations.
Local Open Scope Z_scope.

(* Return codes: UMFPACK_OK, UMFPACK_WARNING_singular_matrix, any error. *)
Inductive status := UOK | USingular | UError.
Definition is_ok (s : status) : bool := match s with UOK => true | _ => false end.

Section LU.
Context {M V : Type} (rows cols : M -> Z).
(* umfpack_di_solve: factorised contents, the arrays Ap, Ai, Ax passed in (they are read during
   iterative refinement), right-hand side. Undefined when the arrays no longer fit the handle. *)
Variable usolve : M -> M -> list V -> outcome (list V).

(* A live library object. *)
Inductive obj := Sym (m : M) | Num (m : M) (singular : bool).

(* LUSolver's fields. include/LUSolver.hpp:54-57 *)
Record solver := mksolver { order_ : Z; mat_ : option nat; symbolic_ : option nat; numeric_ : option nat }.

(* Everything outside: live library objects by handle, the next fresh handle, the handles released
   so far, the solver objects and the CSCMat objects by address. *)
Record world := mkworld { objs : nat -> option obj; next : nat; freed : list nat;
                          solvers : nat -> option solver; mats : nat -> option M }.

Definition upd1 {A} (f : nat -> option A) (i : nat) (v : option A) : nat -> option A :=
  fun j => if Nat.eqb j i then v else f j.
Definition with_solver (w : world) (i : nat) (s : option solver) : world :=
  mkworld (objs w) (next w) (freed w) (upd1 (solvers w) i s) (mats w).
Definition with_mat (w : world) (m : nat) (a : option M) : world :=
  mkworld (objs w) (next w) (freed w) (solvers w) (upd1 (mats w) m a).

(* Allocation of a fresh object by the library. *)
Definition alloc (w : world) (o : obj) : nat * world :=
  (next w, mkworld (upd1 (objs w) (next w) (Some o)) (S (next w)) (freed w) (solvers w) (mats w)).

(* umfpack_di_free_symbolic / umfpack_di_free_numeric: releasing a dead handle is undefined. *)
Definition release (w : world) (h : nat) : outcome world :=
  match objs w h with
  | Some _ => Ok (mkworld (upd1 (objs w) h None) (next w) (h :: freed w) (solvers w) (mats w))
  | None => UB
  end.

(* if (handle) { free; handle = nullptr; } *)
Definition release_opt (w : world) (h : option nat) : outcome world :=
  match h with Some h => release w h | None => Ok w end.

(* LUSolver::freeMem. src/LUSolver.cpp:24-33 *)
Definition freeMem (w : world) (s : solver) : outcome (world * solver) :=
  bind (release_opt w (symbolic_ s)) (fun w =>
  bind (release_opt w (numeric_ s)) (fun w =>
  Ok (w, mksolver (order_ s) (mat_ s) None None))).

Inductive result := Done | Threw | Solved (x : list V).

(* The matrix object at address m; using a destroyed one is undefined. *)
Definition the_mat (w : world) (m : nat) : outcome M := match mats w m with Some a => Ok a | None => UB end.
Definition the_solver (w : world) (i : nat) : outcome solver := match solvers w i with Some s => Ok s | None => UB end.

(* LUSolver::symbolicFactorize (src/LUSolver.cpp:11-15): the library stores a new object in
   symbolic_ on success and NULL otherwise. *)
Definition symbolicFactorize (w : world) (s : solver) (a : M) (st : status) : world * solver * bool :=
  if is_ok st then let '(h, w) := alloc w (Sym a) in (w, mksolver (order_ s) (mat_ s) (Some h) (numeric_ s), true)
  else (w, mksolver (order_ s) (mat_ s) None (numeric_ s), false).

(* LUSolver::numericFactorize (src/LUSolver.cpp:17-21): a singular matrix still gives an object,
   although the return code is not UMFPACK_OK; other failures store NULL. *)
Definition numericFactorize (w : world) (s : solver) (a : M) (st : status) : world * solver * bool :=
  match st with
  | UError => (w, mksolver (order_ s) (mat_ s) (symbolic_ s) None, false)
  | _ => let '(h, w) := alloc w (Num a (negb (is_ok st))) in
         (w, mksolver (order_ s) (mat_ s) (symbolic_ s) (Some h), is_ok st)
  end.

(* LUSolver::factorize on solver i and matrix object m; st1, st2: what the two library calls
   return. src/LUSolver.cpp:35-48 *)
Definition factorize (w : world) (i m : nat) (st1 st2 : status) : outcome (world * result) :=
  bind (the_solver w i) (fun s =>
  bind (the_mat w m) (fun a =>
  if negb (rows a =? cols a) then Ok (w, Threw)
  else bind (freeMem w (mksolver (rows a) (Some m) (symbolic_ s) (numeric_ s))) (fun '(w, s) =>
  let '(w, s, ok) := symbolicFactorize w s a st1 in
  if negb ok then Ok (with_solver w i (Some s), Threw)
  else let '(w, s, ok) := numericFactorize w s a st2 in
  if negb ok then Ok (with_solver w i (Some s), Threw)
  else bind (release_opt w (symbolic_ s)) (fun w =>
  Ok (with_solver w i (Some (mksolver (order_ s) (mat_ s) None (numeric_ s))), Done))))).

(* LUSolver::solve (src/LUSolver.cpp:50-61); st: the return code of umfpack_di_solve, which is
   never UMFPACK_OK for a singular factorisation (UMFPACK user guide). The result holds the whole
   of soln afterwards; what is left in soln after an exception is not modelled. *)
Definition solve (w : world) (i : nat) (rhs soln : list V) (st : status) : outcome (world * result) :=
  bind (the_solver w i) (fun s =>
  match numeric_ s, mat_ s with
  | Some h, Some m =>
    if Z.of_nat (List.length rhs) <? order_ s then Ok (w, Threw)
    else if Z.of_nat (List.length soln) <? order_ s then Ok (w, Threw)
    else bind (the_mat w m) (fun a =>
    match objs w h with
    | Some (Num a0 singular) =>
      bind (usolve a0 a rhs) (fun x =>
      if is_ok st && negb singular then Ok (w, Solved (x ++ skipn (List.length x) soln))
      else Ok (w, Threw))
    | _ => UB
    end)
  | _, _ => Ok (w, Threw)
  end).

(* LUSolver(): include/LUSolver.hpp:31-34; ~LUSolver(): 54-56. *)
Definition construct (w : world) (i : nat) : outcome (world * result) :=
  match solvers w i with
  | None => Ok (with_solver w i (Some (mksolver 0 None None None)), Done)
  | Some _ => UB
  end.
Definition destroy (w : world) (i : nat) : outcome (world * result) :=
  bind (the_solver w i) (fun s =>
  bind (freeMem w s) (fun '(w, _) => Ok (with_solver w i None, Done))).

(* The class declares a destructor only, so the copy constructor is the implicit memberwise one. *)
Definition copy (w : world) (i j : nat) : outcome (world * result) :=
  bind (the_solver w i) (fun s =>
  match solvers w j with None => Ok (with_solver w j (Some s), Done) | Some _ => UB end).

(* What a client can do. SetMat creates or modifies a matrix object, DropMat destroys one. *)
Inductive op :=
| New (i : nat) | Factorize (i m : nat) (st1 st2 : status) | Solve (i : nat) (rhs soln : list V) (st : status)
| Destroy (i : nat) | Copy (i j : nat) | SetMat (m : nat) (a : M) | DropMat (m : nat).

Definition step (w : world) (o : op) : outcome (world * result) :=
  match o with
  | New i => construct w i
  | Factorize i m st1 st2 => factorize w i m st1 st2
  | Solve i rhs soln st => solve w i rhs soln st
  | Destroy i => destroy w i
  | Copy i j => copy w i j
  | SetMat m a => Ok (with_mat w m (Some a), Done)
  | DropMat m => Ok (with_mat w m None, Done)
  end.

Fixpoint run (w : world) (ops : list op) : outcome (world * list result) :=
  match ops with
  | [] => Ok (w, [])
  | o :: ops => bind (step w o) (fun '(w, r) => bind (run w ops) (fun '(w, rs) => Ok (w, r :: rs)))
  end.

Definition empty_world : world := mkworld (fun _ => None) 0 [] (fun _ => None) (fun _ => None).
End LU.
Arguments obj : clear implicits.
Arguments world : clear implicits.
Arguments op : clear implicits.
Arguments result : clear implicits.
Arguments empty_world {M}.
