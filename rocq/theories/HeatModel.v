(* HeatModel.v - the drivers heat2d.py (time step and time loop: heat2d.py:62-64, 115-168) and poisson2d.py (26-65), which solve
   with scipy the systems made of the matrices Poisson2DSparseMatrix exports. A scipy sparse matrix is the list of its (row,
   column, value) entries, entries at one place adding up. scipy.sparse.linalg.splu is a parameter. The arrays getOP() and getMM()
   return have one row per entry of the matrices (C90), so they enter as such lists; indices, doubles there, are naturals here. *)
From Coq Require Import ZArith List Bool Arith.
From Verif Require Import Base Loops Num TripletModel CscModel CscSpec SwModel CurvedSwModel.
Import ListNotations.
Local Open Scope nat_scope.

Section Scripts.
Context {T : Type} (A : arith T).
Definition triples : Type := list (nat * nat * T).
(* scipy.sparse.linalg.splu: from an n x n matrix, the method solve; raises if it finds the matrix singular *)
Variable splu : nat -> triples -> outcome (list T -> list T).

(* csc_matrix((vals, (rows, cols)), shape=(n, n)): raises ValueError if an index does not fit. heat2d.py:121, 131;
   poisson2d.py:31, 52 *)
Definition csc_matrix (n : nat) (ts : triples) : outcome triples :=
  if forallb (fun e => (row_of e <? n) && (col_of e <? n)) ts then Ok ts else Throw.
(* MMsp.dot(x): every entry adds value * x[column] to y[row]. heat2d.py:152; poisson2d.py:60 *)
Definition sp_dot (n : nat) (ts : triples) (x : list T) : outcome (list T) :=
  if length x =? n then
    Ok (map (fun i => fold_left (fun y e => if row_of e =? i then fadd A y (fmul A (val_of e) (nth (col_of e) x (fofn A 0))) else y) ts (fofn A 0)) (seq 0 n))
  else Throw.
(* kappa*dt*vals, MMsp + scaledLap and -OPsp: heat2d.py:128, 134; poisson2d.py:55 *)
Definition sp_map (f : T -> T) (ts : triples) : triples := map (fun e => (row_of e, col_of e, f (val_of e))) ts.
Definition sp_add (a b : triples) : triples := a ++ b.
(* x + y of two vectors; other lengths raise (numpy would also stretch a vector of length one) *)
Definition vec_add (x y : list T) : outcome (list T) :=
  if length x =? length y then Ok (map (fun p => fadd A (fst p) (snd p)) (combine x y)) else Throw.
(* np.max(np.abs(x)), which raises on an empty array: heat2d.py:164; np.max of heat2d.py:64 *)
Definition np_max (x : list T) : outcome T :=
  match x with [] => Throw | a :: x' => Ok (fold_left (fmax A) x' a) end.
(* soln/np.max(np.abs(soln)): heat2d.py:164 *)
Definition normalised (m : mat T) : outcome (mat T) :=
  bind (np_max (map (fabs A) (flattenF m))) (fun top => Ok (mkmat (mrows m) (mcols m) (fun i k => fdiv A (ment m i k) top))).

(* dt = CFL / np.max(((N+1)**2)*0.5*(np.abs(Fscale.flatten('F'))**2)*kappa): heat2d.py:64; half is the literal 0.5 *)
Definition heat_dt (half CFL kappa : T) (N : nat) (Fscale : mat T) : outcome T :=
  bind (np_max (map (fun F => fmul A (fmul A (fmul A (fofn A (S N * S N)) half) (fmul A (fabs A F) (fabs A F))) kappa) (flattenF Fscale)))
    (fun top => Ok (fdiv A CFL top)).

Section Heat.
Variables (Np K : nat).
(* one pass of the loop: heat2d.py:151-156, 168 *)
Definition heat_step (MM : triples) (solve : list T -> list T) (bc : list T) (p : mat T) : outcome (mat T) :=
  bind (sp_dot (Np * K) MM (flattenF p)) (fun y =>
  bind (vec_add y bc) (fun r => reshapeF A Np K (solve r))).
(* passes j, j+1, ..., j+n-1 of the loop and the (index, field) pairs they write: heat2d.py:148-168 *)
Fixpoint heat_loop (MM : triples) (solve : list T -> list T) (bc : list T) (n j : nat) (p : mat T) : outcome (list (nat * mat T)) :=
  match n with
  | 0 => Ok []
  | S n' =>
      bind (heat_step MM solve bc p) (fun q =>
      bind (if j mod 10 =? 0 then bind (normalised q) (fun o => Ok [(j, o)]) else Ok []) (fun out =>
      bind (heat_loop MM solve bc n' (S j) q) (fun outs => Ok (out ++ outs))))
  end.
(* heat2d.py:119-168 with n passes (the script makes 1999) *)
Definition heat (MM OP : triples) (kappa dt : T) (bcRhs : mat T) (n : nat) : outcome (list (nat * mat T)) :=
  bind (csc_matrix (Np * K) MM) (fun MMsp =>
  bind (csc_matrix (Np * K) (sp_map (fmul A (fmul A kappa dt)) OP)) (fun scaledLap =>
  bind (splu (Np * K) (sp_add MMsp scaledLap)) (fun solve =>
  let p := mkmat Np K (fun _ _ => fofn A 0) in
  bind (heat_loop MMsp solve (flattenF bcRhs) n 1 p) (fun outs => Ok ((0, p) :: outs))))).

(* the entries appended in poisson2d.py:38-49 *)
Definition bordering (dof : nat) : triples :=
  flat_map (fun j => [(dof, j, fofn A 1); (j, dof, fofn A 1)]) (seq 0 dof) ++ [(dof, dof, fofn A 0)].
(* poisson2d.py:26-65; f is the array rhs1 *)
Definition poisson2d (MM OP : triples) (f : mat T) : outcome (mat T) :=
  bind (csc_matrix (Np * K) MM) (fun MMsp =>
  bind (csc_matrix (S (Np * K)) (OP ++ bordering (Np * K))) (fun OPsp =>
  bind (splu (S (Np * K)) (sp_map (fopp A) OPsp)) (fun solve =>
  bind (sp_dot (Np * K) MMsp (flattenF f)) (fun rhs =>
  reshapeF A Np K (removelast (solve (rhs ++ [fofn A 0]))))))).
End Heat.
End Scripts.
