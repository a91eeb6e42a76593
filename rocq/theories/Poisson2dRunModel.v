(* Poisson2dRunModel.v - the program src/poisson2d/main.cpp from the node tables to what it prints and writes, with the operator of
   Poisson2dModel and the solver of GmresModel. Reading the mesh and building the nodes (43-59) are modelled elsewhere; the order,
   the sine, pi and the solver parameters of lines 93-96 are arguments. The local mass matrix (69-76) is computed and never used:
   left out. Writing the files (108-112) is left out: the fields written are returned. *)
From Coq Require Import ZArith List Bool Arith.
From Verif Require Import Base Loops Num BlitzModel Maps2DModel Nodes1DModel RKModel Line1DModel SwModel GmresModel Poisson2dModel.
Import ListNotations.
Local Open Scope nat_scope.

Section Poisson2dRun.
Context {T : Type} (A : arith T).
Variable junk : nat -> nat -> T.                                   (* uninitialised matrix storage *)
Variable junkv : nat -> T.                                         (* uninitialised vector storage *)
Variables (lowest : T) (sine : T -> T) (pi : T).

(* The functor PoissonOperator as the solver calls it (src/poisson2d/Poisson2d.hpp:24-167). It returns true or throws: a call that is
   not Ok is remembered in the environment and ends the solver. *)
Definition poisson2d_mvec (d : dg2d (T := T)) (J : mat T) (NF Nfp Np K : nat) (e : outcome unit) (v o : list T) : outcome unit * bool * list T :=
  match poisson2d_op A junk junkv lowest d J NF Nfp Np K v o with Ok r => (e, true, r) | Throw => (Throw, false, o) | UB => (UB, false, o) end.
(* src/poisson2d/Poisson2d.hpp:170-177 Precon. Blitz does not check the extents of out = in; here it is not Ok if they differ. *)
Definition poisson2d_precon (e : outcome unit) (v o : list T) : outcome unit * bool * list T :=
  if (length v =? length o)%nat then (e, true, v) else (UB, false, o).

Variable isfin : T -> bool.
Variable dtrsv : nat -> nat -> list T -> list T -> list T.
Variable dgemv : nat -> nat -> nat -> list T -> list T -> list T.
Variable drotg : T -> T -> T * T * T.

(* What the program leaves behind: the printed record of the solver (104), the three fields written (109-111) and the printed
   largest absolute value of u (106). *)
Record poisson2d_out := P2 { p2_gmres : @gout T; p2_u : mat T; p2_uexact : mat T; p2_rhs : mat T; p2_max : T }.

(* src/poisson2d/main.cpp:61-111. The right side is not multiplied by the mass matrix (84-85) and the solver starts from uexact (90). *)
Definition poisson2d_run (d : dg2d (T := T)) (J x y : mat T) (NF Nfp Np K : nat) (params : @gparams T) : outcome poisson2d_out :=
  require (conform x Np K && conform y Np K)
  (let uexact := mzip (driver_exact A sine pi) x y in
   let rhs := mmap (fmul A (fmul A (fopp A pi) pi)) uexact in
   bind (fullToVector rhs (fresh junkv (Np * K)) false) (fun b =>
   bind (fullToVector uexact (fresh junkv (Np * K)) false) (fun outVec =>
   bind (gmres A isfin (outcome unit) (poisson2d_mvec d J NF Nfp Np K) poisson2d_precon dtrsv dgemv drotg junkv junk params b outVec (Ok tt)) (fun res =>
   let '(g, outVec, e) := res in
   match g_flag g with
   | F_matvec_fail | F_precon_fail => match e with Throw => Throw | _ => UB end
   | _ =>
     bind (vectorToFull outVec (mkmat Np K junk) false) (fun soln =>
     Ok (P2 g soln uexact rhs (max_abs A lowest soln)))
   end)))).
End Poisson2dRun.
