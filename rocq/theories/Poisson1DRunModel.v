(* Poisson1DRunModel.v - the program src/poisson1d/main.cpp from the node object to the printed error, with the operator
   of Line1DModel and the solver of GmresModel. The interval, order and number of elements of lines 38-43 come with the
   node object; pi, the sine and the solver parameters of line 95 are arguments. Writing the files (91, 104-106) and
   printing (71, 110) are left out: the fields written and the number printed are returned. *)
From Coq Require Import ZArith List Bool Arith.
From Verif Require Import Base Loops Num BlitzModel Nodes1DModel Line1DModel GmresModel.
Import ListNotations.
Local Open Scope nat_scope.

Section Poisson1DRun.
Context {T : Type} (A : arith T).
Variable junk : nat -> nat -> T.                                   (* uninitialised matrix storage *)
Variable junkv : nat -> T.                                         (* uninitialised vector storage *)
Variables (fsin : T -> T) (pi lowest : T).

(* src/poisson1d/main.cpp:74-75. -pi*pi*sin is ((-pi)*pi)*sin. *)
Definition poisson1d_uexact (x : mat T) : mat T := Line1DModel.mmap (fun v => fsin (fmul A pi v)) x.
Definition poisson1d_forcing (x : mat T) : mat T := Line1DModel.mmap (fun v => fmul A (fmul A (fopp A pi) pi) (fsin (fmul A pi v))) x.

(* src/poisson1d/main.cpp:85-88: J times the mass matrix times the forcing, element by element in one vector. *)
Definition poisson1d_rhs (n : nodes1d) (J : mat T) (Np K : nat) (f : mat T) : outcome (list T) :=
  require (conform (n_Vinv n) Np Np && conform J Np K && conform f Np K)
  (let mass := mkmat Np Np (fun i j => fsum A Np (fun k => fmul A (ment (n_Vinv n) k i) (ment (n_Vinv n) k j))) in
   fullToVector (scaled_product A J mass f Np Np K) (fresh junkv (Np * K)) false).

(* The functor PoissonOperator as the solver calls it (src/poisson1d/Poisson1d.hpp:29-136). It always returns true: false
   stands for a call that was not Ok. *)
Definition poisson1d_mvec (n : nodes1d) (J rx Fscale : mat T) (Np K : nat) (e : unit) (v o : list T) : unit * bool * list T :=
  match poisson1d_op A junk junkv lowest n J rx Fscale Np K v o with Ok r => (e, true, r) | _ => (e, false, o) end.
(* src/poisson1d/Poisson1d.hpp:140-146 Precon. Blitz does not check the extents of out = in; here it is not Ok if they differ. *)
Definition poisson1d_precon (e : unit) (v o : list T) : unit * bool * list T :=
  if (length v =? length o)%nat then (e, true, v) else (e, false, o).

Variable isfin : T -> bool.
Variable dtrsv : nat -> nat -> list T -> list T -> list T.
Variable dgemv : nat -> nat -> nat -> list T -> list T -> list T.
Variable drotg : T -> T -> T * T * T.

(* What the program leaves behind: the record of the solver (never looked at), u.dat, uexact.dat, RHS.dat and the error. *)
Record poisson1d_out := P1 { p1_gmres : @gout T; p1_u : mat T; p1_uexact : mat T; p1_forcing : mat T; p1_err : T }.

(* src/poisson1d/main.cpp:74-110 on the tables of the nodes object. *)
Definition poisson1d_run (n : nodes1d) (J rx Fscale : mat T) (Np K : nat) (params : @gparams T) : outcome poisson1d_out :=
  let uexact := poisson1d_uexact (n_x n) in
  let forcing := poisson1d_forcing (n_x n) in
  bind (poisson1d_rhs n J Np K forcing) (fun b =>
  let outVec := repeat (fofn A 0) (Np * K) in
  bind (gmres A isfin unit (poisson1d_mvec n J rx Fscale Np K) poisson1d_precon dtrsv dgemv drotg junkv junk params b outVec tt) (fun res =>
  let '(g, outVec, _) := res in
  match g_flag g with
  | F_matvec_fail | F_precon_fail => UB
  | _ =>
    bind (vectorToFull outVec (mkmat Np K junk) false) (fun u =>
    require (conform (n_x n) Np K)
    (Ok (P1 g u uexact forcing (max_abs A lowest (Line1DModel.mzip (fsub A) u uexact)))))
  end)).
End Poisson1DRun.
