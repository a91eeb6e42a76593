(* InsRunModel.v - src/ins2d/main.cpp from the parameters and the mesh to the end of the time loop. Reading the configuration
   file is in NamelistModel, reading the mesh in MeshModel; printing is left out. The Poisson operator is asked for with three
   arguments (170), but every constructor of include/Poisson2DSparseMatrix.hpp:27-28 takes four: the missing one is taken to be
   0, which selects the discontinuous operator. *)
From Coq Require Import ZArith List Bool Arith.
From Verif Require Import Base Loops Num BlitzModel CscModel Maps2DModel Nodes1DModel TriModel QuadModel RKModel Line1DModel SwModel SwStepModel PoissonModel InsModel.
Import ListNotations.
Local Open Scope nat_scope.

Section InsRun.
Context {T : Type} (A : arith T).
Variable solve : mat T -> mat T -> mat T -> outcome (mat T).       (* DirectSolver::solve *)
Variable inverse : mat T -> mat T -> outcome (mat T).              (* DenseMatrixInverter::computeInverse *)
Variables (junk : nat -> nat -> T) (junkv : nat -> T) (junkn : nat -> nat) (jk : nat * T).   (* uninitialised storage *)
Variables (lowest highest : T).                                    (* where max and min reductions start *)
Variables (ftanh fexp flog : T -> T) (powi : T -> nat -> T) (hypot : T -> T -> T).
Variable eig : nat -> (nat -> nat -> T) -> list T * (nat -> nat -> T).
Variable sort : (nat -> nat -> bool) -> list nat -> list nat.
Variables (eps tol : T).
Variable factorize : csc T -> outcome unit.                        (* LUSolver::factorize *)
Local Notation "# n" := (fofn A n) (at level 1, format "# n").

(* rho = 1 + drho*(-tanh(5*(y+.005*x+.075))+1)/2 with drho = 0.003: src/ins2d/main.cpp:135-136. A quotient of two small
   integers rounds to the double nearest to the decimal. *)
Definition dec (n d : nat) : T := fdiv A #n #d.
Definition ins_density (x y : T) : T :=
  let arg := fmul A #5 (fadd A (fadd A y (fmul A (dec 5 1000) x)) (dec 75 1000)) in
  fadd A #1 (fdiv A (fmul A (dec 3 1000) (fadd A (fopp A (ftanh arg)) #1)) #2).
(* 135-139 *)
Definition ins_initial (Np K : nat) (x y : mat T) : state (T := T) :=
  (mzip ins_density x y, mzero A Np K, mzero A Np K).

(* The members QuadNodesProvisioner::get_DGContext hands out (src/QuadNodesProvisioner.cpp:840-873), and the tables of the mesh *)
Definition quad_dg (el : element (T := T)) (m : maps) : dg2d (T := T) :=
  let g := e_metric el in
  Dg2d (e_Dr el) (e_Ds el) (e_Lift el) (e_Fscale el) (e_nx el) (e_ny el) (g_rx g) (g_ry g) (g_sx g) (g_sy g) (m_vmapM m) (m_vmapP m) (m_bc m).
Definition quad_ptables (N : nat) (el : element (T := T)) (m : maps) (E2E E2F : list nat) (bcType : list Z) : ptables T :=
  PTables (quad_dg el m) (e_Vinv el) (g_J (e_metric el)) (e_r el) (e_s el) (mkmat (S N) 4 (fun n f => nth n (nth f (e_masks el) []) 0)) E2E E2F bcType.

(* What the loop starts from: the filter, the fields, the wave bound, the first time step. src/ins2d/main.cpp:104-195, with
   the provisioner's constructor and buildFilter; Nc = filtCutOff*N, sp = filtOrder converted to an int. *)
Record ins_ready := Ready { i_dg : dg2d (T := T); i_F : mat T; i_q : state (T := T); i_c0 : T; i_dt : T }.
Definition ins_setup (N K : nat) (Vert : list T) (EToV E2E E2F : list nat) (bcType : list Z) (g CFL cutoff : T) (sp : nat) : outcome ins_ready :=
  let Np := (N + 1) * (N + 1) in let Nfp := S N in
  bind (buildQuad A solve inverse junk eps eig tol N K Vert EToV) (fun el =>
  bind (buildMaps A hypot sort junkv junkn tol 4 Nfp Np K (mkmat (S N) 4 (fun n f => nth n (nth f (e_masks el) []) 0)) (e_x el) (e_y el) E2E E2F EToV Vert bcType []) (fun m =>
  bind (quadFilter A powi fexp flog eps N (e_V el) (e_Vinv el) (fmul A cutoff #N) sp) (fun F =>
  let q := ins_initial Np K (e_x el) (e_y el) in let '(rho, u, v) := q in
  bind (ins_fsc A junkv (quad_dg el m) 4 Nfp Np K u v) (fun Fsc =>
  bind (fullToVector (e_y el) (repeat #0 (Np * K)) false) (fun yVec =>
  bind (fullToVector rho (repeat #0 (Np * K)) false) (fun rhoVec =>
  let bf := buoyancy_freq A lowest highest g yVec rhoVec in let c0 := c0_bound A lowest highest g yVec rhoVec in
  bind (build A inverse junk jk (quad_ptables N el m E2E E2F bcType) 4 Np Nfp K N 1 0) (fun P =>
  bind (factorize (getOP P)) (fun _ =>
  Ok (Ready (quad_dg el m) F q c0 (ins_first_dt A lowest N CFL c0 bf Fsc)))))))))).
(* 206-259: the loop; the result holds the numbers and densities written *)
Definition ins_program (fuel : nat) (vorts : nat -> nat -> nat -> T) (N K : nat) (Vert : list T) (EToV E2E E2F : list nat) (bcType : list Z)
  (g CFL cutoff t0 finalTime huge : T) (sp : nat) : outcome (swsim T) :=
  bind (ins_setup N K Vert EToV E2E E2F bcType g CFL cutoff sp) (fun s =>
  ins_loop A junk junkv lowest fuel vorts (i_dg s) N 4 (S N) ((N + 1) * (N + 1)) K g CFL huge (i_c0 s) finalTime (i_F s) (SwSim t0 (i_dt s) 0 (i_q s) [])).
End InsRun.
