(* Nodes1DModel.v - the one-dimensional nodes provisioner: src/Nodes1DProvisioner.cpp and
   include/VandermondeBuilders.hpp. The dense solver, the matrix inverter and the eigenvalue solver are
   parameters (see DenseModel.v). Matrices are initialised arrays unless a junk parameter says otherwise.
   NumFacePoints = 1 and NumFaces = 2 are written out. *)
From Coq Require Import ZArith List Bool.
From Verif Require Import Base Loops Num BlitzModel CscModel MeshModel JacobiModel.
Import ListNotations.
Local Open Scope nat_scope.

Section Connectivity1D.
(* Element type of the face matrix, as in MeshModel.v. *)
Variable T : Type.
Variable one : T.
Variable add mul : T -> T -> T.
Variable isOne : T -> bool.                                (* x == 1.0 *)
Variable jk : nat * T.
Variable jp ji : nat -> nat.
Variable jx : nat -> T.

(* body of src/Nodes1DProvisioner.cpp:181-190; the state is (globalFaceNum, FToVtrans). E2V is the K x 2
   table, row by row. *)
Definition face_step1 (E2V : list Z) (k f : nat) (st : nat * csc T) : outcome (nat * csc T) :=
  let '(g, a) := st in
  bind (getn [0; 1] f) (fun v =>
  bind (getn E2V (k * 2 + v)) (fun vGlobal =>
  bind (setn (p_ a) g g) (fun p' =>
  bind (row_index vGlobal) (fun r =>
  bind (setn (i_ a) g r) (fun i' =>
  bind (setn (x_ a) g one) (fun x' => Ok (S g, mkcsc (m_ a) (n_ a) (nzmax a) p' i' x'))))))).

(* src/Nodes1DProvisioner.cpp:172-191 *)
Definition buildFToV (K : nat) (E2V : list Z) : outcome (csc T) :=
  bind (ctor_sizes jp ji jx (K + 1) (2 * K) (2 * K)) (fun a0 =>
  bind (for_ K (fun k => for_ 2 (face_step1 E2V k)) (0, a0)) (fun '(g, a) =>
  bind (setn (p_ a) (2 * K) g) (fun p' => Ok (mkcsc (m_ a) (n_ a) (nzmax a) p' (i_ a) (x_ a))))).

(* buildConnectivityMatrices: src/Nodes1DProvisioner.cpp:171-238. The scan of the product is the one of
   MeshModel.store_connections with the test elems(k) == 1.0 and arrays of fixed size 2K-2
   (a negative size is undefined). E2E0, E2F0 are the allocated tables. *)
Definition buildConnectivity1D_with (K : nat) (E2V : list Z) (E2E0 E2F0 : list nat) : outcome (list nat * list nat) :=
  bind (buildFToV K E2V) (fun FToVtrans =>
  bind (transpose jk FToVtrans) (fun FV =>
  bind (multiply add mul jk FV FToVtrans) (fun FToF =>
  if 2 * K <? 2 then UB else
  bind (store_connections T isOne (2 * K) (2 * K - 2) FToF) (fun '(_, f1, f2) =>
  bind (self_tables K 2 E2E0 E2F0) (fun tabs =>
  link_tables 2 (2 * K - 2) (map (fun f => f / 2) f1) (map (fun f => f mod 2) f1)
                            (map (fun f => f / 2) f2) (map (fun f => f mod 2) f2) tabs))))).
End Connectivity1D.

(* The code's instance: doubles. *)
Definition buildConnectivity1D (jk : nat * dbl) (jp ji : nat -> nat) (jx : nat -> dbl) :=
  buildConnectivity1D_with dbl d_one d_add d_mul (fun x => SpecFloat.SFeqb x d_one) jk jp ji jx.

(* src/Nodes1DProvisioner.cpp:80-83 *)
Definition buildE2V1D (K : nat) (E2V0 : list Z) : outcome (list Z) :=
  for_ K (fun k e => bind (setn e (k * 2 + 0) (Z.of_nat k)) (fun e1 => setn e1 (k * 2 + 1) (Z.of_nat k + 1)%Z)) E2V0.

(* buildFaceMask: src/Nodes1DProvisioner.cpp:162 *)
Definition Fmask1D (Np : nat) : list nat := [0; Np - 1].

Declare Scope nd_scope.
Section Nodes.
Context {T : Type} (A : arith T).
Local Notation "a + b" := (fadd A a b) : nd_scope. Local Notation "a - b" := (fsub A a b) : nd_scope.
Local Notation "a * b" := (fmul A a b) : nd_scope. Local Notation "a / b" := (fdiv A a b) : nd_scope.
Local Notation "# n" := (fofn A n) (at level 1, format "# n").
Delimit Scope nd_scope with nd.
Definition fhalf : T := (#1 / #2)%nd.                      (* the literal 0.5 *)

(* sum(f(kk), kk) of blitz: left to right from 0 *)
Definition fsum (n : nat) (f : nat -> T) : T := fold_left (fun s k => (s + f k)%nd) (seq 0 n) #0.

(* A matrix whose column j is the vector c j (of length rows; V(Range::all(), j) = p). *)
Definition mat_cols (rows cols : nat) (c : nat -> list T) : mat T :=
  mkmat rows cols (fun i j => nth i (c j) #0).

(* computeVandermondeMatrix, first part: include/VandermondeBuilders.hpp:46-52 *)
Definition vandermonde1D (r : list T) (cols : nat) : mat T :=
  mat_cols (length r) cols (fun j => computeJacobiPolynomial A r #0 #0 j).
(* computeGradVandermonde: include/VandermondeBuilders.hpp:65-74 *)
Definition gradVandermonde1D (r : list T) : mat T :=
  mat_cols (length r) (length r) (fun j => computeGradJacobi A r #0 #0 j).

Definition mtrans (m : mat T) : mat T := mkmat (mcols m) (mrows m) (fun i j => ment m j i).
Definition mmul (a b : mat T) : mat T :=                   (* sum(a(ii,kk)*b(kk,jj), kk) *)
  mkmat (mrows a) (mcols b) (fun i j => fsum (mcols a) (fun k => (ment a i k * ment b k j)%nd)).
Definition mzero (r c : nat) : mat T := mkmat r c (fun _ _ => #0).

Variable solve : mat T -> mat T -> mat T -> outcome (mat T).     (* DirectSolver::solve *)
Variable inverse : mat T -> mat T -> outcome (mat T).            (* DenseMatrixInverter::computeInverse *)
Variable eig : nat -> (nat -> nat -> T) -> list T * (nat -> nat -> T).
Variable eps : T.
Variable junk : nat -> nat -> T.                                 (* uninitialised matrices *)

(* buildDr: src/Nodes1DProvisioner.cpp:283-307 *)
Definition buildDr (r : list T) (V : mat T) : outcome (mat T) :=
  let Np := length r in
  bind (solve (mtrans V) (mtrans (gradVandermonde1D r)) (mkmat Np Np junk)) (fun Drtrans => Ok (mtrans Drtrans)).

(* buildLift: src/Nodes1DProvisioner.cpp:240-259 *)
Definition buildLift1D (Np : nat) (V : mat T) : outcome (mat T) :=
  bind (mset (mzero Np 2) 0 0 #1) (fun E1 => bind (mset E1 (Np - 1) 1 #1) (fun E =>
  Ok (mmul V (mmul (mtrans V) E)))).

(* src/Nodes1DProvisioner.cpp:69-75 *)
Definition grid1D (Min_x Max_x : T) (K : nat) (r : list T) : mat T :=
  let width := ((Max_x - Min_x) / #K)%nd in
  mkmat (length r) K (fun i k => (Min_x + width * (#k + fhalf * (nth i r #0 + #1)))%nd).

(* buildFaceMask, second part: src/Nodes1DProvisioner.cpp:164-168 *)
Definition faceCoords (Np K : nat) (x : mat T) : outcome (mat T) :=
  for_ K (fun k => for_ 2 (fun f Fx => bind (getn (Fmask1D Np) f) (fun m => bind (mget x m k) (fun v => mset Fx f k v))))
  (mkmat 2 K junk).

(* buildNormals: src/Nodes1DProvisioner.cpp:91-102 *)
Definition buildNormals1D (K : nat) : outcome (mat T) :=
  bind (for_ K (fun k => for_ 2 (fun f '(nx, mult) =>
     bind (mset nx f k mult) (fun nx' => Ok (nx', (mult * fopp A #1)%nd)))) (mkmat 2 K junk, fopp A #1)) (fun st => Ok (fst st)).

(* buildMaps: src/Nodes1DProvisioner.cpp:104-155; nodeIds(i,k) = i + Np*k. *)
Variable tol : T.                                                (* NodeTol *)
Definition buildMaps1D (Np K : nat) (xmat : mat T) (E2E E2F : list nat) : outcome (list nat * list nat) :=
  bind (reshapeMatTo1D xmat false (repeat #0 (K * Np))) (fun x =>
  bind (for_ K (fun k => for_ 2 (fun f '(vmM, count) =>
     bind (getn (Fmask1D Np) f) (fun m =>
     bind (mget (mkmat Np K (fun i k => (i + Np * k)%nat)) m k) (fun id =>
     bind (setn vmM count id) (fun v' => Ok (v', S count)))))) (repeat 0 (2 * K), 0)) (fun '(vmM, _) =>
  bind (for_ K (fun k1 => for_ 2 (fun f1 '(vmP, count) =>
     bind (getn E2E (k1 * 2 + f1)) (fun k2 => bind (getn E2F (k1 * 2 + f1)) (fun f2 =>
     bind (getn vmM (k1 * 2 + f1)) (fun vidM => bind (getn vmM (k2 * 2 + f2)) (fun vidP =>
     bind (getn x vidM) (fun xM => bind (getn x vidP) (fun xP =>
     let dx := (xM - xP)%nd in
     if flt A (fsqrt A (dx * dx)%nd) tol
     then bind (setn vmP count vidP) (fun v' => Ok (v', S count))
     else Ok (vmP, S count)))))))))  (repeat 0 (2 * K), 0)) (fun '(vmP, _) => Ok (vmM, vmP)))).

(* computeJacobian: src/Nodes1DProvisioner.cpp:261-281; the result is (J, rx, Fscale). *)
Definition computeJacobian1D (Np K : nat) (x Dr : mat T) : outcome (mat T * mat T * mat T) :=
  let J := mmul Dr x in
  let rx := mkmat (mrows J) (mcols J) (fun i k => (#1 / ment J i k)%nd) in
  bind (for_ 2 (fun f Fs => bind (getn (Fmask1D Np) f) (fun m =>
     for_ K (fun k Fs => bind (mget J m k) (fun v => mset Fs f k (#1 / v)%nd)) Fs)) (mkmat 2 K junk)) (fun Fs =>
  Ok (J, rx, Fs)).

Record nodes1d := Nodes1d {
  n_r : list T; n_V : mat T; n_Vinv : mat T; n_Dr : mat T; n_Lift : mat T; n_x : mat T; n_E2V : list Z;
  n_E2E : list nat; n_E2F : list nat; n_Fmask : list nat; n_Fx : mat T; n_vmapM : list nat; n_vmapP : list nat; n_nx : mat T;
  n_mapI : Z; n_mapO : Z; n_vmapI : Z; n_vmapO : Z }.

Variable conn : nat -> list Z -> list nat -> list nat -> outcome (list nat * list nat).   (* buildConnectivity1D *)
Variable junkn : nat -> nat.                                     (* uninitialised index tables *)

(* constructor and buildNodes: src/Nodes1DProvisioner.cpp:33-89. The product of int sizes is not checked here
   (the largest one is in ctor_sizes). *)
Definition buildNodes1D (N K : nat) (Min_x Max_x : T) : outcome nodes1d :=
  let Np := S N in
  let r := computeGaussLobottoPoints A eig eps #0 #0 N in
  let V := vandermonde1D r Np in
  bind (inverse V (mkmat Np Np junk)) (fun Vinv =>
  bind (buildDr r V) (fun Dr =>
  bind (buildLift1D Np V) (fun Lift =>
  let x := grid1D Min_x Max_x K r in
  bind (buildE2V1D K (map Z.of_nat (map junkn (seq 0 (2 * K))))) (fun E2V =>
  bind (conn K E2V (map junkn (seq 0 (2 * K))) (map junkn (seq 0 (2 * K)))) (fun '(E2E, E2F) =>
  bind (faceCoords Np K x) (fun Fx =>
  bind (buildMaps1D Np K x E2E E2F) (fun '(vmM, vmP) =>
  bind (buildNormals1D K) (fun nx =>
  Ok (Nodes1d r V Vinv Dr Lift x E2V E2E E2F (Fmask1D Np) Fx vmM vmP nx
        0 (1 * 2 * Z.of_nat K - 1) 0 ((Z.of_nat N + 1) * Z.of_nat K - 1))))))))))%Z.
End Nodes.
