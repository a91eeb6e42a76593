(* PoissonModel.v - the discontinuous Galerkin Poisson operator of src/Poisson2DSparseMatrix.cpp (buildPoissonOperator,
   the version without cubature) and the accessors of include/Poisson2DSparseMatrix.hpp. Arrays of the discretisation
   whose shapes do not conform are UB here. *)
From Coq Require Import ZArith List Bool.
From Verif Require Import Base Loops Num TripletModel CscModel Nodes1DModel TriModel Line1DModel SwModel.
Import ListNotations.
Local Open Scope nat_scope.

Declare Scope po_scope.
Delimit Scope po_scope with po.
Section Poisson.
Context {T : Type} (A : arith T).
Local Notation "a + b" := (fadd A a b) : po_scope. Local Notation "a - b" := (fsub A a b) : po_scope.
Local Notation "a * b" := (fmul A a b) : po_scope. Local Notation "- a" := (fopp A a) : po_scope.
Local Notation "# n" := (fofn A n) (at level 1, format "# n").
Local Notation half := (fhalf A).
Variable inverse : mat T -> mat T -> outcome (mat T).              (* DenseMatrixInverter::computeInverse *)
Variable junk : nat -> nat -> T.                                   (* uninitialised matrix storage *)

(* include/Types.hpp, include/DGContext2D.hpp: the tables the operator is assembled from. Fm is Fmask, Nfp rows and one
   column for each face. *)
Record ptables := PTables {
  p_dg : dg2d (T := T); p_Vinv : mat T; p_J : mat T; p_r : list T; p_s : list T; p_Fm : mat nat;
  p_E2E : list nat; p_E2F : list nat; p_bc : list Z }.

(* a call of SparseTriplet::insert (include/SparseTriplet.hpp:155-161); an exception ends the assembly *)
Definition ins (r c : nat) (v : T) (t : triplet T) : outcome (triplet T) :=
  match TripletModel.insert T #0 t (Z.of_nat r) (Z.of_nat c) v with
  | (t', Done) => Ok t' | (_, Threw) => Throw | (_, Undef) => UB
  end.
(* the loops inserting an Np x Np block with its corner at (r0, c0): src/Poisson2DSparseMatrix.cpp:804-808 *)
Definition insBlock (Np r0 c0 : nat) (B : mat T) : triplet T -> outcome (triplet T) :=
  for_ Np (fun i => for_ Np (fun j t => bind (mget B i j) (fun v => ins (r0 + i) (c0 + j) v t))).
(* the same for two triplets at once: src/Poisson2DSparseMatrix.cpp:816-821 *)
Definition insBlock2 (Np r0 c0 : nat) (B C : mat T) : triplet T * triplet T -> outcome (triplet T * triplet T) :=
  for_ Np (fun i => for_ Np (fun j '(t, u) =>
    bind (mget B i j) (fun v => bind (ins (r0 + i) (c0 + j) v t) (fun t =>
    bind (mget C i j) (fun w => bind (ins (r0 + i) (c0 + j) w u) (fun u => Ok (t, u))))))).

(* the coordinates edge1, edge2, edge3 of the nodes of face f: src/Poisson2DSparseMatrix.cpp:658-660, 672-674, 685-687 *)
Definition faceCoord (Nfp f : nat) (x : list T) (Fm : mat nat) : outcome (list T) :=
  for_ Nfp (fun i l => bind (mget Fm i f) (fun m => bind (getn x m) (fun v => Ok (l ++ [v])))) [].
(* V1D, V1Dinv and myTemp = sum(V1Dinv(kk,ii)*V1Dinv(kk,jj), kk): src/Poisson2DSparseMatrix.cpp:662-663, 676-677, 689-690 *)
Definition lineMass (Nfp : nat) (x : list T) : outcome (mat T) :=
  bind (inverse (vandermonde1D A x Nfp) (mkmat Nfp Nfp junk)) (fun Vi => Ok (mmul A (mtrans Vi) Vi)).
(* massEdge(Fmask(i,f), Fmask(j,f), f) = myTemp(i,j): src/Poisson2DSparseMatrix.cpp:665-669, 678-682, 691-695 *)
Definition putMass (Nfp f : nat) (Fm : mat nat) (M E : mat T) : outcome (mat T) :=
  for_ Nfp (fun i => for_ Nfp (fun j E =>
    bind (mget Fm i f) (fun a => bind (mget Fm j f) (fun b => bind (mget M i j) (fun v => mset E a b v))))) E.
Definition faceMass (Np Nfp f : nat) (x : list T) (Fm : mat nat) : outcome (mat T) :=
  bind (faceCoord Nfp f x Fm) (fun e => bind (lineMass Nfp e) (fun M => putMass Nfp f Fm M (mzero A Np Np))).
(* massEdge, one matrix for each face: src/Poisson2DSparseMatrix.cpp:622-695. Faces 0, 1, 2 are filled in, with the
   coordinates r, r, s, whatever the number of faces; standardFaces and nodes1d are not used. *)
Definition massEdges (NF Np Nfp : nat) (r s : list T) (Fm : mat nat) : outcome (list (mat T)) :=
  if negb ((NF =? 3) || (NF =? 4)) then Throw else
  bind (faceMass Np Nfp 0 r Fm) (fun E0 => bind (faceMass Np Nfp 1 r Fm) (fun E1 => bind (faceMass Np Nfp 2 s Fm) (fun E2 =>
  Ok ([E0; E1; E2] ++ repeat (mzero A Np Np) (NF - 3))))).

(* a*X + b*Y, as Dx = rx(0,k)*Dr + sx(0,k)*Ds: src/Poisson2DSparseMatrix.cpp:720-721, 760-761, 764-765 *)
Definition comb (a : T) (X : mat T) (b : T) (Y : mat T) : mat T :=
  mkmat (mrows X) (mcols X) (fun i j => (a * ment X i j + b * ment Y i j)%po).
(* Dx, Dy of element k *)
Definition gradXY (d : dg2d (T := T)) (k : nat) : outcome (mat T * mat T) :=
  bind (mget (d_rx d) 0 k) (fun rx => bind (mget (d_sx d) 0 k) (fun sx =>
  bind (mget (d_ry d) 0 k) (fun ry => bind (mget (d_sy d) 0 k) (fun sy =>
  Ok (comb rx (d_Dr d) sx (d_Ds d), comb ry (d_Dr d) sy (d_Ds d)))))).
(* the volume part of OP11: src/Poisson2DSparseMatrix.cpp:726-730 *)
Definition volume (MM Dx Dy : mat T) (J : T) : mat T :=
  let P := mmul A (mmul A (mtrans Dx) MM) Dx in let Q := mmul A (mmul A (mtrans Dy) MM) Dy in
  mkmat (mrows P) (mcols P) (fun i j => ((ment P i j + ment Q i j) * J)%po).
(* gtau*mmE - sum(mmE(ii,kk)*Dn1(kk,jj), kk) - sum(Dn1(kk,ii)*mmE(kk,jj), kk): src/Poisson2DSparseMatrix.cpp:777, 784 *)
Definition penalty (gtau : T) (mmE Dn : mat T) (i j : nat) : T :=
  (gtau * ment mmE i j - ment (mmul A mmE Dn) i j - ment (mmul A (mtrans Dn) mmE) i j)%po.
(* OP12(i,j) += v *)
Definition addAt (i j : nat) (v : T) (M : mat T) : outcome (mat T) := bind (mget M i j) (fun x => mset M i j (x + v)%po).
(* the block OP12 between an element and its neighbour: src/Poisson2DSparseMatrix.cpp:786-802 *)
Definition coupling (Np Nfp : nat) (gtau : T) (mmE Dn1 Dn2 : mat T) (Fm1 Fm2 : list nat) : outcome (mat T) :=
  bind (for_ Np (fun i => for_ Nfp (fun j M =>
    bind (getn Fm1 j) (fun a => bind (getn Fm2 j) (fun b => bind (mget mmE i a) (fun v =>
    addAt i b (- (half * (gtau * v)))%po M))))) (mzero A Np Np)) (fun M =>
  bind (for_ Nfp (fun i => for_ Nfp (fun j X => bind (getn Fm1 i) (fun a => bind (getn Fm1 j) (fun b =>
    bind (mget mmE a b) (fun v => mset X i j v))))) (mzero A Nfp Nfp)) (fun mmEff =>
  bind (for_ Nfp (fun i => for_ Np (fun j X => bind (getn Fm2 i) (fun a =>
    bind (mget Dn2 a j) (fun v => mset X i j v)))) (mzero A Nfp Np)) (fun Dn2f =>
  bind (for_ Nfp (fun i => for_ Np (fun j X => bind (getn Fm1 i) (fun a =>
    bind (mget mmE j a) (fun v => mset X j i v)))) (mzero A Np Nfp)) (fun mmEf =>
  let prod1 := mmul A mmEff Dn2f in
  let prod2 := mkmat Np Nfp (fun i j => fsum A Np (fun k => (- ment Dn1 k i * ment mmEf k j)%po)) in
  for_ Np (fun i => for_ Nfp (fun j M =>
    bind (getn Fm1 j) (fun a => bind (getn Fm2 j) (fun b => bind (mget prod1 j i) (fun u => bind (mget prod2 i j) (fun w =>
    bind (addAt a i (- half * u)%po M) (fun M => addAt i b (- half * w)%po M))))))) M)))).

(* vidM % Np, vidP % Np for the nodes of face f of element k: src/Poisson2DSparseMatrix.cpp:744-750 *)
Definition localIds (Np Nfp NF k f : nat) (vmap : list nat) : outcome (list nat) :=
  for_ Nfp (fun j l => bind (getn vmap (Nfp * NF * k + f * Nfp + j)) (fun v => Ok (l ++ [v mod Np]))) [].

(* include/BCtypes.hpp *)
Definition tagWall : Z := 3. Definition tagDirichlet : Z := 6. Definition tagNeuman : Z := 7.

(* one pass of the loop over faces: src/Poisson2DSparseMatrix.cpp:733-811 *)
Definition face (p : ptables) (NF Np Nfp N : nat) (skipDG : Z) (ME : list (mat T)) (Dx Dy : mat T) (k f : nat)
  (st : mat T * triplet T) : outcome (mat T * triplet T) :=
  let d := p_dg p in let '(OP11, OP) := st in
  bind (getn (p_E2E p) (NF * k + f)) (fun k2 => bind (getn (p_E2F p) (NF * k + f)) (fun f2 =>
  bind (localIds Np Nfp NF k f (d_vmapM d)) (fun Fm1 => bind (localIds Np Nfp NF k f (d_vmapP d)) (fun Fm2 =>
  bind (mget (d_nx d) (f * Nfp) k) (fun lnx => bind (mget (d_ny d) (f * Nfp) k) (fun lny =>
  bind (mget (d_Fscale d) (f * Nfp) k) (fun fs1 => bind (mget (d_Fscale d) (f2 * Nfp) k2) (fun fs2 =>
  bind (getn Fm1 1) (fun m1 => bind (mget (p_J p) m1 k) (fun j1 =>
  bind (gradXY d k2) (fun '(Dx2, Dy2) => bind (getn ME f) (fun E =>
  let lsJ := (fs1 * j1)%po in let hinv := fmax A fs1 fs2 in
  let Dn1 := comb lnx Dx lny Dy in let Dn2 := comb lnx Dx2 lny Dy2 in
  let mmE := mkmat Np Np (fun i j => (lsJ * ment E i j)%po) in
  let factor := (20000 * Z.of_nat (N + 1) * Z.of_nat (N + 1))%Z in          (* 100*100*2*(N+1)*(N+1), an int *)
  if (INT_MAX <? factor)%Z then UB else
  let gtau := (fofZ A factor * hinv)%po in
  if negb (skipDG =? 0)%Z then Ok (OP11, OP) else
  bind (getn (p_bc p) (NF * k + f)) (fun tag =>
  if (tag =? tagDirichlet)%Z then
    Ok (mkmat Np Np (fun i j => (ment OP11 i j + penalty gtau mmE Dn1 i j)%po), OP)
  else if (tag =? tagNeuman)%Z || (tag =? tagWall)%Z then Ok (OP11, OP)
  else
    bind (coupling Np Nfp gtau mmE Dn1 Dn2 Fm1 Fm2) (fun OP12 =>
    bind (insBlock Np (Np * k) (Np * k2) OP12 OP) (fun OP =>
    Ok (mkmat Np Np (fun i j => (ment OP11 i j + half * penalty gtau mmE Dn1 i j)%po), OP)))))))))))))))).

(* one pass of the loop over elements: src/Poisson2DSparseMatrix.cpp:712-824 *)
Definition elementOP (p : ptables) (NF Np Nfp N : nat) (skipDG : Z) (ME : list (mat T)) (MM : mat T) (k : nat)
  (st : triplet T * triplet T) : outcome (triplet T * triplet T) :=
  let '(OP, M) := st in
  bind (gradXY (p_dg p) k) (fun '(Dx, Dy) => bind (mget (p_J p) 0 k) (fun J =>
  bind (for_ NF (face p NF Np Nfp N skipDG ME Dx Dy k) (volume MM Dx Dy J, OP)) (fun '(OP11, OP) =>
  let tmp := mkmat Np Np (fun i j => (J * ment MM i j)%po) in
  insBlock2 Np (Np * k) (Np * k) OP11 tmp (OP, M)))).

(* the last row and column of a bordered system: src/Poisson2DSparseMatrix.cpp:826-832 *)
Definition border (dof : nat) : triplet T -> outcome (triplet T) :=
  for_ dof (fun k t => bind (ins dof k #1 t) (fun t => ins k dof #1 t)).

Definition ptables_conform (p : ptables) (NF Nfp Np K : nat) : bool :=
  dg_conform (p_dg p) NF Nfp Np K && conform (p_Vinv p) Np Np && conform (p_J p) Np K.

(* buildPoissonOperator: src/Poisson2DSparseMatrix.cpp:590-848. The result is (OP, MM); the capacities are ints. *)
Definition assemble (p : ptables) (NF Np Nfp K N : nat) (bordered skipDG : Z) : outcome (triplet T * triplet T) :=
  require (ptables_conform p NF Nfp Np K) (
  let MM := mmul A (mtrans (p_Vinv p)) (p_Vinv p) in
  bind (massEdges NF Np Nfp (p_r p) (p_s p) (p_Fm p)) (fun ME =>
  let dof := Np * K in let inc := if (bordered =? 0)%Z then 0 else 1 in
  let capM := (Z.of_nat Np * Z.of_nat Np * Z.of_nat K)%Z in
  let capO := ((1 + Z.of_nat NF) * Z.of_nat Np * Z.of_nat Np * Z.of_nat K + Z.of_nat inc * 2 * Z.of_nat dof)%Z in
  if (INT_MAX <? capO)%Z then UB else
  bind (TripletModel.ctor T #0 (Z.of_nat dof) (Z.of_nat dof) capM) (fun M =>
  bind (TripletModel.ctor T #0 (Z.of_nat (dof + inc)) (Z.of_nat (dof + inc)) capO) (fun OP =>
  bind (for_ K (elementOP p NF Np Nfp N skipDG ME MM) (OP, M)) (fun '(OP, M) =>
  if (bordered =? 0)%Z then Ok (OP, M) else bind (border dof OP) (fun OP => Ok (OP, M))))))).

(* include/Poisson2DSparseMatrix.hpp:70-80: the object after construction, and the accessors; getMM returns *OP_ and
   getOP returns *MM_. *)
Record poisson := Poisson { OP_ : csc T; MM_ : csc T }.
Definition build (jk : nat * T) (p : ptables) (NF Np Nfp K N : nat) (bordered skipDG : Z) : outcome poisson :=
  bind (assemble p NF Np Nfp K N bordered skipDG) (fun '(OP, M) =>
  bind (ctor_triplet jk OP) (fun o => bind (ctor_triplet jk M) (fun m => Ok (Poisson o m)))).
Definition getMM (s : poisson) : csc T := OP_ s.
Definition getOP (s : poisson) : csc T := MM_ s.
End Poisson.
Arguments ptables : clear implicits. Arguments poisson : clear implicits.
