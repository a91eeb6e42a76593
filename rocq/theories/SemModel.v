(* SemModel.v - the continuous (spectral element) Poisson operator: Poisson2DSparseMatrix::buildSEMPoissonOperator
   (src/Poisson2DSparseMatrix.cpp:493-588). Arrays of the discretisation whose shapes do not conform are UB here; the index
   vectors entries and entriesMM are never read and left out. *)
From Coq Require Import ZArith List Bool.
From Verif Require Import Base Loops Num TripletModel CscModel JacobiModel Nodes1DModel TriModel Line1DModel SwModel PoissonModel.
Import ListNotations.
Local Open Scope nat_scope.

Section Sem.
Context {T : Type} (A : arith T).
Local Notation "# n" := (fofn A n) (at level 1, format "# n").

(* std::vector::at *)
Definition vat (l : list nat) (i : nat) : outcome nat := match nth_error l i with Some v => Ok v | None => Throw end.
(* DG2SEM_map(n, k) = scatter.at(ind), column k of it kept as the list `slice`: src/Poisson2DSparseMatrix.cpp:501-509, 547-548 *)
Definition semColumn (Np k : nat) (scatter : list nat) : outcome (list nat) :=
  for_ Np (fun n l => bind (vat scatter (Np * k + n)) (fun v => Ok (l ++ [v]))) [].
Definition semMap (Np K : nat) (scatter : list nat) : outcome (list (list nat)) :=
  for_ K (fun k M => bind (semColumn Np k scatter) (fun c => Ok (M ++ [c]))) [].
(* rows1(i,j) = slice(i), cols1(i,j) = slice(j); the two insertions: src/Poisson2DSparseMatrix.cpp:550-551, 568-573 *)
Definition semInsert (Np : nat) (slice : list nat) (B C : mat T) : triplet T * triplet T -> outcome (triplet T * triplet T) :=
  for_ Np (fun i => for_ Np (fun j '(t, u) =>
    bind (getn slice i) (fun r => bind (getn slice j) (fun c =>
    bind (mget B i j) (fun v => bind (ins A r c v t) (fun t =>
    bind (mget C i j) (fun w => bind (ins A r c w u) (fun u => Ok (t, u))))))))).
(* one pass of the loop over elements: src/Poisson2DSparseMatrix.cpp:545-576 *)
Definition semElement (p : ptables T) (Np : nat) (map_ : list (list nat)) (MM : mat T) (k : nat) (st : triplet T * triplet T) : outcome (triplet T * triplet T) :=
  bind (getn map_ k) (fun slice =>
  bind (gradXY A (p_dg p) k) (fun '(Dx, Dy) => bind (mget (p_J p) 0 k) (fun J =>
  semInsert Np slice (volume A MM Dx Dy J) (mkmat Np Np (fun i j => fmul A J (ment MM i j))) st))).

(* buildSEMPoissonOperator: src/Poisson2DSparseMatrix.cpp:493-588. The mass matrix has one row for each entry of gather, the
   operator one for each node of the discontinuous grid; the capacities are ints. *)
Definition assembleSem (p : ptables T) (NF Np Nfp K : nat) (gather scatter : list nat) (bordered : Z) : outcome (triplet T * triplet T) :=
  require (ptables_conform p NF Nfp Np K) (
  let sem := length gather in
  bind (semMap Np K scatter) (fun map_ =>
  let MM := mmul A (mtrans (p_Vinv p)) (p_Vinv p) in
  let inc := if (bordered =? 0)%Z then 0 else 1 in
  let capM := (Z.of_nat Np * Z.of_nat Np * Z.of_nat K)%Z in
  let capO := (10 * Z.of_nat Np * Z.of_nat Np * Z.of_nat K + Z.of_nat inc * 2 * Z.of_nat sem)%Z in
  if (INT_MAX <? capO)%Z then UB else
  bind (TripletModel.ctor T #0 (Z.of_nat sem) (Z.of_nat sem) capM) (fun M =>
  bind (TripletModel.ctor T #0 (Z.of_nat (Np * K + inc)) (Z.of_nat (Np * K + inc)) capO) (fun OP =>
  bind (for_ K (semElement p Np map_ MM) (OP, M)) (fun '(OP, M) =>
  if (bordered =? 0)%Z then Ok (OP, M) else bind (border A sem OP) (fun OP => Ok (OP, M))))))).
Definition buildSem (jk : nat * T) (p : ptables T) (NF Np Nfp K : nat) (gather scatter : list nat) (bordered : Z) : outcome (poisson T) :=
  bind (assembleSem p NF Np Nfp K gather scatter bordered) (fun '(OP, M) =>
  bind (ctor_triplet jk OP) (fun o => bind (ctor_triplet jk M) (fun m => Ok (Poisson o m)))).
End Sem.
