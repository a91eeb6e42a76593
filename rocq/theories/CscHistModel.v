(* CscHistModel.v - sequences of CSCMat operations on a growing collection of matrices, and the
   ownership of the memory blocks behind them. *)
From Coq Require Import ZArith List Bool.
From Verif Require Import Base Loops TripletModel CscModel.
Import ListNotations.
Local Open Scope nat_scope.

Section Hist.
Variable T : Type.
Variables (add mul : T -> T -> T).

(* One call. jp ji jx jk are the contents of freshly allocated memory. Matrices are numbered in
   order of creation. The size constructor CSCMat(rows, cols, nnz) is left out: it leaves its
   storage uninitialised (see ctor_sizes). *)
Inductive call :=
| FromTriplet (jk : nat * T) (t : triplet T)
| FromDense (jp ji : nat -> nat) (jx : nat -> T) (big : T -> bool) (A : mat T)
| Copy (jp ji : nat -> nat) (jx : nat -> T) (k : nat)
| Assign (jp ji : nat -> nat) (jx : nat -> T) (k l : nat)    (* matrix k = matrix l *)
| Swap (k l : nat)
| TransposeInPlace (jk : nat * T) (k : nat)                  (* src/CSCMatrix.cpp:128-133 *)
| TransposeOf (jk : nat * T) (k : nat)                       (* src/CSCMatrix.cpp:165-170 *)
| Multiply (jk : nat * T) (k l : nat)
| RemoveDuplicates (jk : nat * T) (k : nat)
| Prune (jk : nat * T) (big : T -> bool) (k : nat).

(* a throw before anything was changed *)
Definition keep {A} (env : list (csc T)) (o : outcome A) (f : A -> outcome (list (csc T) * ended))
  : outcome (list (csc T) * ended) :=
  match o with Ok a => f a | Throw => Ok (env, Threw) | UB => UB end.

Definition call_step (env : list (csc T)) (c : call) : outcome (list (csc T) * ended) :=
  match c with
  | FromTriplet jk t => keep env (ctor_triplet jk t) (fun a => Ok (env ++ [a], Done))
  | FromDense jp ji jx big A => keep env (ctor_dense jp ji jx big A) (fun a => Ok (env ++ [a], Done))
  | Copy jp ji jx k =>
      bind (getn env k) (fun o => keep env (copy_ctor jp ji jx o) (fun a => Ok (env ++ [a], Done)))
  | Assign jp ji jx k l =>
      bind (getn env k) (fun lhs => bind (getn env l) (fun rhs =>
        keep env (assign jp ji jx lhs rhs) (fun a => Ok (upd env k a, Done))))
  | Swap k l =>
      bind (getn env k) (fun a => bind (getn env l) (fun b =>
        Ok (upd (upd env k (fst (swap a b))) l (snd (swap a b)), Done)))
  | TransposeInPlace jk k =>
      bind (getn env k) (fun a => keep env (transpose jk a) (fun b => Ok (upd env k b, Done)))
  | TransposeOf jk k =>
      bind (getn env k) (fun a => keep env (transpose jk a) (fun b => Ok (env ++ [b], Done)))
  | Multiply jk k l =>
      bind (getn env k) (fun a => bind (getn env l) (fun b =>
        keep env (multiply add mul jk a b) (fun c => Ok (env ++ [c], Done))))
  | RemoveDuplicates jk k =>
      bind (getn env k) (fun a => keep env (removeDuplicates add jk a) (fun b => Ok (upd env k b, Done)))
  | Prune jk big k =>
      bind (getn env k) (fun a => keep env (prune jk big a) (fun '(b, e) => Ok (upd env k b, e)))
  end.

(* the caller catches exceptions and carries on *)
Fixpoint calls (env : list (csc T)) (cs : list call) : outcome (list (csc T)) :=
  match cs with
  | [] => Ok env
  | c :: cs' => bind (call_step env c) (fun '(env', _) => calls env' cs')
  end.
End Hist.
Arguments FromTriplet {T}. Arguments FromDense {T}. Arguments Copy {T}. Arguments Assign {T}.
Arguments Swap {T}. Arguments TransposeInPlace {T}. Arguments TransposeOf {T}. Arguments Multiply {T}.
Arguments RemoveDuplicates {T}. Arguments Prune {T}. Arguments call_step {T}. Arguments calls {T}.

(* ---- memory ownership ----
   An object holds a unique_ptr to a cs_di header block (include/CSCMatrix.hpp: mat_), which
   points to three array blocks. A moved-from or destroyed object holds the null pointer. Block
   numbers are handed out in order and never reused. *)
Record header := mkhdr { h_self : nat; h_i : nat; h_p : nat; h_x : nat }.
Definition blocks (h : header) : list nat := [h_self h; h_i h; h_p h; h_x h].
Record mem := mkmem { next : nat; live : list nat; objs : list (option header) }.

(* free(b): undefined unless b is live *)
Fixpoint remove1 (b : nat) (l : list nat) : option (list nat) :=
  match l with
  | [] => None
  | x :: l' => if x =? b then Some l' else option_map (cons x) (remove1 b l')
  end.
Definition free (b : nat) (l : list nat) : outcome (list nat) :=
  match remove1 b l with Some l' => Ok l' | None => UB end.

(* cs_di_spalloc: four blocks *)
Definition spalloc (m : mem) : header * mem :=
  (mkhdr (next m) (S (next m)) (S (S (next m))) (S (S (S (next m)))),
   mkmem (4 + next m) (next m :: S (next m) :: S (S (next m)) :: S (S (S (next m))) :: live m) (objs m)).

(* cs_di_spfree, the deleter of include/CSCMatrix.hpp:25-30; nothing for a null pointer *)
Definition spfree (o : option header) (m : mem) : outcome mem :=
  match o with
  | None => Ok m
  | Some h => bind (free (h_i h) (live m)) (fun l => bind (free (h_p h) l) (fun l =>
              bind (free (h_x h) l) (fun l => bind (free (h_self h) l) (fun l =>
              Ok (mkmem (next m) l (objs m))))))
  end.

(* cs_di_sprealloc: the index and value arrays move to new blocks *)
Definition sprealloc (h : header) (m : mem) : outcome (header * mem) :=
  bind (free (h_i h) (live m)) (fun l => bind (free (h_x h) l) (fun l =>
  Ok (mkhdr (h_self h) (next m) (h_p h) (S (next m)),
      mkmem (2 + next m) (next m :: S (next m) :: l) (objs m)))).

Definition put (k : nat) (o : option header) (m : mem) : mem := mkmem (next m) (live m) (upd (objs m) k o).
Definition push (o : option header) (m : mem) : mem := mkmem (next m) (live m) (objs m ++ [o]).

Inductive mcall :=
| MNew                         (* any constructor that allocates, transpose(A), multiply(A,B) *)
| MCopy (k : nat)              (* src/CSCMatrix.cpp:102-111 *)
| MMove (k : nat)              (* include/CSCMatrix.hpp:94 *)
| MAssign (k l : nat)          (* src/CSCMatrix.cpp:113-116 *)
| MSwap (k l : nat)            (* src/CSCMatrix.cpp:138-147 *)
| MTranspose (k : nat)         (* src/CSCMatrix.cpp:128-133 *)
| MShrink (k : nat)            (* removeDuplicates, prune *)
| MDestroy (k : nat).

(* copying, swapping and reallocating dereference the pointer: undefined when it is null *)
Definition the (o : option header) : outcome header := match o with Some h => Ok h | None => UB end.

(* src/CSCMatrix.cpp:138-147: the array pointers are exchanged, the headers stay *)
Definition swap_headers (a b : header) : header * header :=
  (mkhdr (h_self a) (h_i b) (h_p b) (h_x b), mkhdr (h_self b) (h_i a) (h_p a) (h_x a)).

Definition mstep (m : mem) (c : mcall) : outcome mem :=
  match c with
  | MNew => let (h, m') := spalloc m in Ok (push (Some h) m')
  | MCopy k => bind (getn (objs m) k) (fun o => bind (the o) (fun _ =>
                 let (h, m') := spalloc m in Ok (push (Some h) m')))
  | MMove k => bind (getn (objs m) k) (fun o => Ok (push o (put k None m)))
  | MAssign k l =>
      bind (getn (objs m) k) (fun ok => bind (getn (objs m) l) (fun ol =>
      bind (the ol) (fun _ => bind (the ok) (fun a =>
        let (t, m1) := spalloc m in
        let (a', t') := swap_headers a t in
        spfree (Some t') (put k (Some a') m1)))))
  | MSwap k l =>
      bind (getn (objs m) k) (fun ok => bind (getn (objs m) l) (fun ol =>
      bind (the ok) (fun a => bind (the ol) (fun b =>
        if k =? l then Ok m
        else let (a', b') := swap_headers a b in Ok (put l (Some b') (put k (Some a') m))))))
  | MTranspose k =>
      bind (getn (objs m) k) (fun o => bind (the o) (fun a =>
        let (t, m1) := spalloc m in spfree (Some a) (put k (Some t) m1)))
  | MShrink k =>
      bind (getn (objs m) k) (fun o => bind (the o) (fun a =>
        bind (sprealloc a m) (fun '(a', m1) => Ok (put k (Some a') m1))))
  | MDestroy k => bind (getn (objs m) k) (fun o => spfree o (put k None m))
  end.

Fixpoint mrun (m : mem) (cs : list mcall) : outcome mem :=
  match cs with [] => Ok m | c :: cs' => bind (mstep m c) (fun m' => mrun m' cs') end.

Definition mem0 : mem := mkmem 0 [] [].
