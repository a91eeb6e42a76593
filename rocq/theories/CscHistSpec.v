(* CscHistSpec.v - preconditions of CSCMat calls, and who owns which memory block. *)
From Coq Require Import ZArith List.
From Verif Require Import Base Loops TripletModel CscModel CscSpec CscHistModel.
Import ListNotations.
Local Open Scope nat_scope.

(* rows*cols fits an int: needed to copy a matrix *)
(* calls whose arguments respect the documented preconditions, on the current matrices *)
Definition small {T} (a : csc T) : Prop := (Z.of_nat (rows a) * Z.of_nat (cols a) <= INT_MAX)%Z.
Definition call_ok {T} (env : list (csc T)) (c : call T) : Prop :=
  match c with
  | FromTriplet _ t => triplet_in_range t
  | FromDense _ _ _ _ A => True
  | Copy _ _ _ k => exists a, nth_error env k = Some a /\ small a
  | Assign _ _ _ k l => k < length env /\ exists a, nth_error env l = Some a /\ small a
  | Swap k l | Multiply _ k l => k < length env /\ l < length env
  | TransposeInPlace _ k | TransposeOf _ k | RemoveDuplicates _ k | Prune _ _ k => k < length env
  end.

(* all blocks reachable from the objects *)
Definition owned (os : list (option header)) : list nat :=
  flat_map (fun o => match o with Some h => blocks h | None => [] end) os.

(* a call is undefined only by a null or missing operand *)
Definition holds_matrix (m : mem) (k : nat) : Prop := exists h, nth_error (objs m) k = Some (Some h).
Definition mcall_ok (m : mem) (c : mcall) : Prop :=
  match c with
  | MNew => True
  | MMove k | MDestroy k => k < length (objs m)
  | MCopy k | MTranspose k | MShrink k => holds_matrix m k
  | MAssign k l | MSwap k l => holds_matrix m k /\ holds_matrix m l
  end.


(* The existing matrices a call is allowed to modify. *)
Definition modifies {T} (c : call T) (i : nat) : Prop :=
  match c with
  | Swap k l => i = k \/ i = l
  | Assign _ _ _ k _ | TransposeInPlace _ k | RemoveDuplicates _ k | Prune _ _ k => i = k
  | _ => False
  end.
