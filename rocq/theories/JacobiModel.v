(* JacobiModel.v - Jacobi polynomials: src/JacobiBuilders.cpp. The eigenvalue solver is a parameter.
   Vectors of points are lists; the output vectors are assumed to have the length of the input. *)
From Coq Require Import ZArith List Bool.
From Verif Require Import Base Num.
Import ListNotations.
Local Open Scope nat_scope.

Section Jacobi.
Context {T : Type} (A : arith T).
Local Notation "a + b" := (fadd A a b). Local Notation "a - b" := (fsub A a b).
Local Notation "a * b" := (fmul A a b). Local Notation "a / b" := (fdiv A a b).
Local Notation "- a" := (fopp A a).
Local Notation sq := (fsqrt A). Local Notation "# n" := (fofn A n) (at level 1, format "# n").

(* gamma0: src/JacobiBuilders.cpp:25 (and 93) *)
Definition gamma0 (alpha beta : T) : T :=
  fpow A #2 (alpha + beta + #1) / (alpha + beta + #1) * ftgamma A (alpha + #1) * ftgamma A (beta + #1)
  / ftgamma A (alpha + beta + #1).

(* one pass of the recurrence, src/JacobiBuilders.cpp:44-50; (aold, row i-1, row i) *)
Definition jacobi_step (x : list T) (alpha beta : T) (i : nat) (st : T * list T * list T) : T * list T * list T :=
  let '(aold, prev, cur) := st in
  let h1 := #(2 * i) + alpha + beta in
  let anew := #2 / (h1 + #2) *
    sq (#(i + 1) * (#(i + 1) + alpha + beta) * (#(i + 1) + alpha) * (#(i + 1) + beta) / (h1 + #1) / (h1 + #3)) in
  let bnew := (- (alpha * alpha - beta * beta)) / h1 / (h1 + #2) in
  let next := map (fun '(xx, (p, c)) => #1 / anew * ((- aold) * p + (xx - bnew) * c)) (combine x (combine prev cur)) in
  (anew, cur, next).

Fixpoint jacobi_loop (x : list T) (alpha beta : T) (i n : nat) (st : T * list T * list T) : T * list T * list T :=
  match n with
  | O => st
  | S n' => jacobi_loop x alpha beta (S i) n' (jacobi_step x alpha beta i st)
  end.

(* computeJacobiPolynomial: src/JacobiBuilders.cpp:18-52 *)
Definition computeJacobiPolynomial (x : list T) (alpha beta : T) (N : nat) : list T :=
  let g0 := gamma0 alpha beta in
  let p0 := map (fun _ => #1 / sq g0) x in
  match N with
  | 0 => p0
  | S n =>
    let g1 := (alpha + #1) * (beta + #1) / (alpha + beta + #3) * g0 in
    let p1 := map (fun xx => ((alpha + beta + #2) * xx / #2 + (alpha - beta) / #2) / sq g1) x in
    let aold := #2 / (#2 + alpha + beta) * sq ((alpha + #1) * (beta + #1) / (alpha + beta + #3)) in
    snd (jacobi_loop x alpha beta 1 n (aold, p0, p1))
  end.

(* computeGradJacobi: src/JacobiBuilders.cpp:117-127 *)
Definition computeGradJacobi (x : list T) (alpha beta : T) (N : nat) : list T :=
  match N with
  | 0 => map (fun _ => #0) x
  | S n => let p := computeJacobiPolynomial x (alpha + #1) (beta + #1) n in
           let c := sq (#N * (#N + alpha + beta + #1)) in
           map (fun v => c * v) p
  end.

(* The matrix handed to the eigenvalue solver in computeJacobiQuadWeights:
   src/JacobiBuilders.cpp:68-81. eps = numeric_limits<double>::epsilon(). *)
Definition quad_diag (eps alpha beta : T) (i : nat) : T :=
  let h1 := #2 * #i + alpha + beta in
  if (i =? 0) && flt A (alpha + beta) (#10 * eps) then #0
  else (- (#1 / #2)) * (alpha * alpha - beta * beta) / (h1 + #2) / h1.
Definition quad_off (alpha beta : T) (i : nat) : T :=       (* entry (i, i+1) *)
  let h1 := #2 * #i + alpha + beta in
  #2 / (h1 + #2) *
    sq (#(i + 1) * (#(i + 1) + alpha + beta) * (#(i + 1) + alpha) * (#(i + 1) + beta) / (h1 + #1) / (h1 + #3)).
Definition quad_upper (eps alpha beta : T) (N i j : nat) : T :=
  if i =? j then quad_diag eps alpha beta i
  else if (j =? S i) && (i <? N) then quad_off alpha beta i else #0.
(* J = J(ii,jj) + J(jj,ii) reads and writes the same array, row by row: below the diagonal the second
   operand has been updated already. *)
Definition quad_matrix (eps alpha beta : T) (N i j : nat) : T :=
  let u := quad_upper eps alpha beta N in
  if j <? i then u i j + (u j i + u i j) else u i j + u j i.

(* computeJacobiQuadWeights: src/JacobiBuilders.cpp:54-96. eig is the symmetric eigenvalue solver
   (size, matrix) -> (eigenvalues, eigenvector entries); the result is (points, weights). *)
Definition computeJacobiQuadWeights (eig : nat -> (nat -> nat -> T) -> list T * (nat -> nat -> T))
    (eps alpha beta : T) (N : nat) : list T * list T :=
  match N with
  | 0 => ([(- (alpha - beta)) / (alpha + beta + #2)], [#2])
  | S _ =>
    let (x, v) := eig (S N) (quad_matrix eps alpha beta N) in
    (x, map (fun j => v 0 j * v 0 j * gamma0 alpha beta) (seq 0 (S N)))
  end.

(* computeGaussLobottoPoints: src/JacobiBuilders.cpp:98-115, for N >= 1 *)
Definition computeGaussLobottoPoints (eig : nat -> (nat -> nat -> T) -> list T * (nat -> nat -> T))
    (eps alpha beta : T) (N : nat) : list T :=
  match N with
  | 0 => []                                               (* not called with N = 0 *)
  | 1 => [- #1; #1]
  | _ => (- #1) :: fst (computeJacobiQuadWeights eig eps (alpha + #1) (beta + #1) (N - 2)) ++ [#1]
  end.
End Jacobi.
