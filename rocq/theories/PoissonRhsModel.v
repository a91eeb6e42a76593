(* PoissonRhsModel.v - the boundary contribution to the right-hand side of the Poisson problem:
   Poisson2DSparseMatrix::buildBcRhs (src/Poisson2DSparseMatrix.cpp:319-487). Arrays of the discretisation whose shapes do
   not conform are UB here. *)
From Coq Require Import ZArith List Bool.
From Verif Require Import Base Loops Num BlitzModel Nodes1DModel TriModel Line1DModel SwModel PoissonModel.
Import ListNotations.
Local Open Scope nat_scope.

Declare Scope rhs_scope.
Delimit Scope rhs_scope with rh.
Section Rhs.
Context {T : Type} (A : arith T).
Local Notation "a + b" := (fadd A a b) : rhs_scope. Local Notation "a * b" := (fmul A a b) : rhs_scope. Local Notation "- a" := (fopp A a) : rhs_scope.
Local Notation "# n" := (fofn A n) (at level 1, format "# n").
Variable inverse : mat T -> mat T -> outcome (mat T).              (* DenseMatrixInverter::computeInverse *)
Variable junk : nat -> nat -> T.                                   (* uninitialised matrix storage *)

(* massEdge: src/Poisson2DSparseMatrix.cpp:352-404. As in the operator, but the number of faces is not checked; with fewer
   than three the third slice does not exist. *)
Definition massEdgesRhs (NF Np Nfp : nat) (r s : list T) (Fm : mat nat) : outcome (list (mat T)) :=
  if NF <? 3 then UB else
  bind (faceMass A inverse junk Np Nfp 0 r Fm) (fun E0 => bind (faceMass A inverse junk Np Nfp 1 r Fm) (fun E1 => bind (faceMass A inverse junk Np Nfp 2 s Fm) (fun E2 =>
  Ok ([E0; E1; E2] ++ repeat (mzero A Np Np) (NF - 3))))).

(* ubcf1, qbcf1: the values of the data on the nodes of face f of element k: src/Poisson2DSparseMatrix.cpp:427-440 *)
Definition faceData (Nfp NF k f : nat) (col : list T) : outcome (list T) :=
  for_ Nfp (fun j l => bind (getn col (Nfp * NF * k + f * Nfp + j)) (fun v => Ok (l ++ [v]))) [].
(* mmE_Fm1(Range::all(), j) = mmE(Range::all(), Fm1(j)): src/Poisson2DSparseMatrix.cpp:458-460 *)
Definition pickCols (Np Nfp : nat) (M : mat T) (ids : list nat) : outcome (mat T) :=
  for_ Nfp (fun j X => bind (getn ids j) (fun b => for_ Np (fun i X => bind (mget M i b) (fun v => mset X i j v)) X)) (mzero A Np Nfp).
(* sum(X(ii,jj)*y(jj), jj) *)
Definition mvec (X : mat T) (y : list T) (i : nat) : outcome T :=
  for_ (mcols X) (fun j acc => bind (mget X i j) (fun a => bind (getn y j) (fun v => Ok (acc + a * v)%rh))) #0.
(* bcRhs(Range::all(), k) += sum(X(ii,jj)*y(jj), jj) *)
Definition addMvec (Np k : nat) (X : mat T) (y : list T) (B : mat T) : outcome (mat T) :=
  for_ Np (fun i B => bind (mvec X y i) (fun v => bind (mget B i k) (fun b => mset B i k (b + v)%rh))) B.

(* one pass of the loop over faces; the reads of one pass are grouped by table: src/Poisson2DSparseMatrix.cpp:420-484 *)
Definition faceRhs (p : ptables T) (NF Np Nfp N : nat) (ME : list (mat T)) (ubc qbc : list T) (Dx Dy : mat T) (k f : nat) (B : mat T) : outcome (mat T) :=
  let d := p_dg p in
  bind (getn (p_E2E p) (NF * k + f)) (fun k2 => bind (getn (p_E2F p) (NF * k + f)) (fun f2 =>
  bind (localIds Np Nfp NF k f (d_vmapM d)) (fun Fm1 => bind (localIds Np Nfp NF k f (d_vmapP d)) (fun _ =>
  bind (faceData Nfp NF k f ubc) (fun ubcf => bind (faceData Nfp NF k f qbc) (fun qbcf =>
  bind (mget (d_nx d) (f * Nfp) k) (fun lnx => bind (mget (d_ny d) (f * Nfp) k) (fun lny =>
  bind (mget (d_Fscale d) (f * Nfp) k) (fun fs1 => bind (mget (d_Fscale d) (f2 * Nfp) k2) (fun fs2 =>
  bind (getn Fm1 1) (fun m1 => bind (mget (p_J p) m1 k) (fun j1 =>
  bind (gradXY A d k2) (fun _ => bind (getn ME f) (fun E =>
  let lsJ := (fs1 * j1)%rh in let hinv := fmax A fs1 fs2 in
  let Dn1 := comb A lnx Dx lny Dy in
  let mmE := mkmat Np Np (fun i j => (lsJ * ment E i j)%rh) in
  bind (pickCols Np Nfp mmE Fm1) (fun mmEF =>
  let factor := (20000 * Z.of_nat (N + 1) * Z.of_nat (N + 1))%Z in          (* 100*100*2*(N+1)*(N+1), an int *)
  if (INT_MAX <? factor)%Z then UB else
  let gtau := (fofZ A factor * hinv)%rh in
  bind (getn (p_bc p) (NF * k + f)) (fun tag =>
  if (tag =? tagDirichlet)%Z then
    let DM := mmul A (mtrans Dn1) mmEF in
    addMvec Np k (mkmat Np Nfp (fun i j => (- ment DM i j + gtau * ment mmEF i j)%rh)) ubcf B
  else if (tag =? tagNeuman)%Z || (tag =? tagWall)%Z then addMvec Np k mmEF qbcf B
  else Ok B)))))))))))))))).

(* buildBcRhs: src/Poisson2DSparseMatrix.cpp:319-487; the result is kept in BcRhs_ *)
Definition buildBcRhs (p : ptables T) (NF Np Nfp K N : nat) (ubc qbc : mat T) : outcome (mat T) :=
  require (ptables_conform p NF Nfp Np K) (
  bind (massEdgesRhs NF Np Nfp (p_r p) (p_s p) (p_Fm p)) (fun ME =>
  bind (reshapeMatTo1D ubc false (repeat #0 (Nfp * NF * K))) (fun ubcCol =>
  bind (reshapeMatTo1D qbc false (repeat #0 (Np * NF * K))) (fun qbcCol =>
  for_ K (fun k B => bind (gradXY A (p_dg p) k) (fun '(Dx, Dy) =>
    for_ NF (faceRhs p NF Np Nfp N ME ubcCol qbcCol Dx Dy k) B)) (mzero A Np K))))).
End Rhs.
