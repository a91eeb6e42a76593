(* GmresSpec.v - vocabulary of the GMRES theorems: the history of callback calls, and what the BLAS routines and
   the callbacks are expected to do. *)
From Coq Require Import ZArith List Bool.
From Verif Require Import Base Loops Num JacobiSpec DenseSpec GmresModel.
From Coq Require Import Reals.
Import ListNotations.
Local Open Scope nat_scope.

(* One call of a callback: which one, its argument, what it returned and the vector it produced. *)
Inductive callee := Operator | Preconditioner.
Record event (T : Type) := Ev { ev_who : callee; ev_in : list T; ev_ok : bool; ev_out : list T }.
Arguments Ev {T}. Arguments ev_who {T}. Arguments ev_in {T}. Arguments ev_ok {T}. Arguments ev_out {T}.

(* The same callback, with its calls recorded (latest first). *)
Definition traced {T Env} (c : callee) (f : Env -> list T -> list T -> Env * bool * list T)
    (et : Env * list (event T)) (v o : list T) : (Env * list (event T)) * bool * list T :=
  let '(e', ok, out) := f (fst et) v o in ((e', Ev c v ok out :: snd et), ok, out).

(* A callback that reports success has filled in a vector of the same length. *)
Definition keeps_length {T Env} (f : Env -> list T -> list T -> Env * bool * list T) (N : nat) : Prop :=
  forall e v o, length v = N -> length o = N -> snd (fst (f e v o)) = true -> length (snd (f e v o)) = N.
Definition all_ok {T} (tr : list (event T)) : Prop := Forall (fun ev => ev_ok ev = true) tr.

(* ||b - w|| and ||b|| in the order the arithmetic performs them *)
Definition sum_sq {T} (A : arith T) (v : list T) : T := fold_left (fun s x => fadd A s (fmul A x x)) v (fofn A 0).
Definition residual_norm {T} (A : arith T) (b w : list T) : T :=
  fsqrt A (sum_sq A (map (fun q => fsub A (fst q) (snd q)) (combine b w))).
Definition rhs_norm {T} (A : arith T) (b : list T) : T := fsqrt A (sum_sq A b).
(* ||b||, or 1 if that is zero *)
Definition scale_norm {T} (A : arith T) (b : list T) : T := if feq A (rhs_norm A b) (fofn A 0) then fofn A 1 else rhs_norm A b.
(* the larger of relTol*||b|| and absTol *)
Definition tolerance {T} (A : arith T) (rel abs : T) (b : list T) : T :=
  let t := fmul A rel (scale_norm A b) in if flt A t abs then abs else t.
Definition all_zero {T} (A : arith T) (x : list T) : Prop := forall t, In t x -> feq A t (fofn A 0) = true.
(* r0 is the residual norm of the initial guess: either the guess is zero and r0 = ||b||, or the first call of the
   run is the operator on the guess *)
Definition initial_norm {T} (A : arith T) (b x : list T) (tr : list (event T)) (r0 : T) : Prop :=
  (all_zero A x /\ r0 = rhs_norm A b) \/ (exists w later, tr = later ++ [Ev Operator x true w] /\ r0 = residual_norm A b w).

(* How the returned record g, the returned solution x' and the recorded calls tr of a run explain each other.
   isfin is std::isfinite, drotg the BLAS rotation; g_msg tells which message text was set. *)
Definition run_explained {T} (A : arith T) (isfin : T -> bool) (drotg : T -> T -> T * T * T) (p : @gparams T) (b x : list T) (g : @gout T) (x' : list T) (tr : list (event T)) : Prop :=
  let ks := Nat.min (length x) (Z.to_nat (kspaceSz p)) in
  let tol := tolerance A (relTol p) (absTol p) b in
  let inv := fdiv A (fofn A 1) (scale_norm A b) in
  let rel rho := g_relres g = fmul A inv rho in
  let last_check rho := exists w tl, tr = Ev Operator x' true w :: tl /\ rho = residual_norm A b w in
  match g_flag g with
  | F_unconverged => False
  | F_success => exists rho est, rel rho /\ fle A est tol = true /\
      ((g_msg g = G_none /\ last_check rho /\ all_ok tr /\ (rho = est \/ isfin rho && flt A tol rho = false)) \/
       (g_msg g = G_test_skipped /\ testTrueRnrm p = true /\ rho = est /\ exists out tl, tr = Ev Operator x' false out :: tl /\ all_ok tl) \/
       (g_msg g = G_none /\ testTrueRnrm p = false /\ rho = est /\ all_ok tr) \/
       (g_msg g = G_none /\ tr = [] /\ x' = x /\ all_zero A x /\ rho = est /\ rho = rhs_norm A b))
  | F_true_rnrm => exists rho, rel rho /\ last_check rho /\ all_ok tr /\ isfin rho = true /\ flt A tol rho = true /\ g_msg g = G_none
  | F_diverged => exists rho r0, rel rho /\ initial_norm A b x tr r0 /\ fle A (fmul A (divTol p) r0) rho = true /\ all_ok tr /\ g_msg g = G_none
  | F_stagnation => exists w pv u tl, tr = Ev Operator x' true w :: Ev Preconditioner u true pv :: tl /\ all_ok tr /\ g_msg g = G_none /\
      rel (residual_norm A b w) /\ forall j, j < length x ->
        feq A (nth j x' (fofn A 0)) (fofn A 0) = true \/
        flt A (fmul A (stgTol p) (fabs A (nth j x' (fofn A 0)))) (fabs A (nth j pv (fofn A 0))) = false
  | F_maxits => (Z.of_nat (g_outer g) + 1 = maxits p)%Z /\ all_ok tr /\ g_msg g = G_none
  | F_breakdown => all_ok tr /\ (exists a b, feq A (fst (fst (drotg a b))) (fofn A 0) = true) /\ g_msg g = G_singular (g_inner g) /\ (g_outer g = 0 -> x' = x)
  | F_inf_or_nan => all_ok tr /\ g_msg g = G_none /\ (exists t, isfin t = false) /\
      ((length tr <= 1 /\ x' = x /\ exists r0, initial_norm A b x tr r0 /\ isfin r0 = false) \/ (g_outer g = 0 -> x' = x) \/
       exists w tl, tr = Ev Operator x' true w :: tl /\ isfin (residual_norm A b w) = false)
  | F_precon_fail => (exists v out tl, tr = Ev Preconditioner v false out :: tl /\ all_ok tl) /\ (g_msg g = G_inner_precon \/ g_msg g = G_update_precon) /\ (g_outer g = 0 -> x' = x)
  | F_matvec_fail => (exists v out tl, tr = Ev Operator v false out :: tl /\ all_ok tl) /\
      ((g_msg g = G_init_matvec /\ x' = x /\ length tr = 1) \/ (g_msg g = G_inner_matvec /\ (g_outer g = 0 -> x' = x)) \/ g_msg g = G_update_matvec)
  end.


(* ---- exact arithmetic ---- *)
(* given vectors of length N the callback always succeeds and computes the product with the N by N matrix P *)
Definition linear_callback {Env} (N : nat) (P : nat -> nat -> R) (f : Env -> list R -> list R -> Env * bool * list R) : Prop :=
  forall e v o, length v = N -> length o = N -> exists e' v', f e v o = (e', true, v') /\ length v' = N /\
    forall a, a < N -> nth a v' 0%R = sumn N (fun b => P a b * nth b v 0)%R.
(* DROTG: a rotation (c, s) taking (a, b) to (r, 0) *)
Definition drotg_spec (f : R -> R -> R * R * R) : Prop :=
  forall a b, let '(r, c, s) := f a b in (c * c + s * s = 1 /\ c * a + s * b = r /\ c * b - s * a = 0)%R.
(* DTRSV with UPLO = 'U', TRANS = 'N', DIAG = 'N': solves the leading n by n upper triangular system in place *)
Definition dtrsv_spec (f : nat -> nat -> list R -> list R -> list R) : Prop :=
  forall n lda a x, n <= lda -> n * lda <= length a -> n <= length x ->
    (forall i, i < n -> cm lda a i i <> 0%R) ->
    let y := f n lda a x in
    (forall i, i < n -> sumn n (fun j => (if i <=? j then cm lda a i j else 0) * nth j y 0)%R = nth i x 0%R) /\
    (forall i, n <= i -> nth i y 0%R = nth i x 0%R).
(* DGEMV with TRANS = 'N', alpha = 1, beta = 0 *)
Definition dgemv_spec (f : nat -> nat -> nat -> list R -> list R -> list R) : Prop :=
  forall m n lda a x, m <= lda -> n * lda <= length a -> n <= length x ->
    forall i, i < m -> nth i (f m n lda a x) 0%R = sumn n (fun j => cm lda a i j * nth j x 0)%R.

(* Vectors with N components, given by their components. *)
Section Vectors.
Local Open Scope R_scope.
Variable N : nat.
Definition dot (u v : nat -> R) : R := sumn N (fun a => u a * v a).
Definition veq (u v : nat -> R) : Prop := forall a, (a < N)%nat -> u a = v a.
Definition lc (n : nat) (c : nat -> R) (v : nat -> nat -> R) : nat -> R := fun a => sumn n (fun l => c l * v l a).
Definition span (n : nat) (v : nat -> nat -> R) (u : nat -> R) : Prop := exists c, veq u (lc n c v).
Definition ap (P : nat -> nat -> R) (u : nat -> R) : nat -> R := fun a => sumn N (fun b => P a b * u b).
Definition ortho (n : nat) (v : nat -> nat -> R) : Prop :=
  forall j l, (j < n)%nat -> (l < n)%nat -> dot (v j) (v l) = if (j =? l)%nat then 1 else 0.
(* r, P r, P (P r), ... *)
Fixpoint kry (P : nat -> nat -> R) (r : nat -> R) (j : nat) : nat -> R := match j with O => r | S m => ap P (kry P r m) end.

(* The system A x = b with right preconditioner M. *)
Variables A M : nat -> nat -> R.
Variable b : nat -> R.
Definition resid_of (x : nat -> R) : nat -> R := fun a => b a - ap A x a.
Definition resnorm (x : nat -> R) : R := sqrt (dot (resid_of x) (resid_of x)).
(* the operator seen by the method, A after M *)
Definition AM : nat -> nat -> R := fun a c => sumn N (fun k => A a k * M k c).
(* x' = x + M z with z in the Krylov space of dimension k of the residual at x, and no such vector has a smaller residual *)
Definition optimal (k : nat) (x x' : nat -> R) : Prop :=
  let K := span k (kry AM (resid_of x)) in
  (exists z, K z /\ veq x' (fun a => x a + ap M z a)) /\
  (forall z, K z -> resnorm x' <= resnorm (fun a => x a + ap M z a)).
(* n complete cycles of k steps lead from x to x' *)
Inductive restarts (k : nat) : nat -> (nat -> R) -> (nat -> R) -> Prop :=
| restarts_0 x : restarts k 0 x x
| restarts_S n x x1 x2 : restarts k n x x1 -> optimal k x1 x2 -> restarts k (S n) x x2.
(* some nonzero vector is mapped to zero *)
Definition AM_singular : Prop := exists u, dot u u <> 0 /\ veq (ap A (ap M u)) (fun _ => 0).
End Vectors.
