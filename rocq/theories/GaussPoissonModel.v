(* GaussPoissonModel.v - the Poisson operator assembled with cubature and Gauss face nodes: src/Poisson2DSparseMatrix.cpp
   (buildPoissonOperator with a GaussFaceContext2D and a CubatureContext2D). Arrays whose shapes do not conform are UB here.
   Blitz assigns arrays entry by entry over the extents of the destination, rows first, without a temporary. *)
From Coq Require Import ZArith List Bool.
From Verif Require Import Base Loops Num TripletModel CscModel Nodes1DModel TriModel Line1DModel SwModel PoissonModel GaussFaceModel CubMeshModel.
Import ListNotations.
Local Open Scope nat_scope.

Declare Scope gq_scope.
Delimit Scope gq_scope with gq.
Section GaussPoisson.
Context {T : Type} (A : arith T).
Local Notation "a + b" := (fadd A a b) : gq_scope. Local Notation "a - b" := (fsub A a b) : gq_scope.
Local Notation "a * b" := (fmul A a b) : gq_scope. Local Notation "- a" := (fopp A a) : gq_scope. Local Notation "a / b" := (fdiv A a b) : gq_scope.
Local Notation "# n" := (fofn A n) (at level 1, format "# n").
Local Notation half := (fhalf A).
Variable eps : T.                                                  (* std::numeric_limits<double>::epsilon() *)

(* The arrays read: of the nodal context Dr, Ds, x, y, Fscale; the Gauss and the cubature context; the tables of the mesh. *)
Record gptables := GPTables { q_Dr : mat T; q_Ds : mat T; q_x : mat T; q_y : mat T; q_Fscale : mat T; q_gauss : gauss_faces T; q_cub : cub_mesh T;
  q_E2E : list nat; q_E2F : list nat; q_bc : list Z }.

(* sum(D(ii,jj)*u(jj), jj), row i: src/Poisson2DSparseMatrix.cpp:97-101, 166-170, 201-205 *)
Definition times (D : mat T) (u : nat -> T) (i : nat) : T := fsum A (mcols D) (fun j => (ment D i j * u j)%gq).
(* J = -xs*yr + xr*ys: 103, 172; line 206 computes J2 from the same xs1, yr1, xr1, ys1 *)
Definition jac (Dr Ds : mat T) (x y : nat -> T) (i : nat) : T := (- times Ds x i * times Dr y i + times Dr x i * times Ds y i)%gq.
(* rx, sx, ry, sy from a given J, and the matrices of the derivatives in x and y: 105-121, 176-190, 210-224 *)
Definition diffx (m : nat) (Dr Ds : mat T) (y : nat -> T) (J : nat -> T) : mat T :=
  mkmat m (mcols Dr) (fun i j => ((times Ds y i / J i) * ment Dr i j + (- times Dr y i / J i) * ment Ds i j)%gq).
Definition diffy (m : nat) (Dr Ds : mat T) (x : nat -> T) (J : nat -> T) : mat T :=
  mkmat m (mcols Dr) (fun i j => ((- times Ds x i / J i) * ment Dr i j + (times Dr x i / J i) * ment Ds i j)%gq).
(* tmp = sum(D(kk,ii)*cW(kk,jj), kk) and sum(tmp(ii,kk)*D(kk,jj), kk) with cW the diagonal matrix of the weights: 71-76, 128-131 *)
Definition energy (m : nat) (w : nat -> T) (D : mat T) : mat T :=
  mmul A (mmul A (mtrans D) (mkmat m m (fun i j => if i =? j then w i else #0))) D.
(* the volume part of OP11: 78-131 *)
Definition volumeOP (q : gptables) (k : nat) : mat T :=
  let c := q_cub q in let m := cc_n c in let x := fun i => ment (q_x q) i k in let y := fun i => ment (q_y q) i k in
  let iDr := mmul A (cc_V c) (q_Dr q) in let iDs := mmul A (cc_V c) (q_Ds q) in let J := jac iDr iDs x y in
  let w := fun i => ment (cc_W c) i k in
  let P := energy m w (diffx m iDr iDs y J) in let Q := energy m w (diffy m iDr iDs x J) in
  mkmat (mrows P) (mcols P) (fun i j => (ment P i j + ment Q i j)%gq).

(* normFro(J) < 10*epsilon for a vector J: 173, 207 (include/LinAlgHelpers.hpp:72-74) *)
Definition smallJ (m : nat) (J : nat -> T) : bool := flt A (fsqrt A (fsum A m (fun i => (J i * J i)%gq))) (#10 * eps)%gq.
(* normMax(D) < 10*epsilon: 192, 226 (include/LinAlgHelpers.hpp:88-90). The maximum is below the bound if every entry is. *)
Definition smallD (D : mat T) : bool :=
  forallb (fun i => forallb (fun j => flt A (fabs A (ment D i j)) (#10 * eps)%gq) (seq 0 (mcols D))) (seq 0 (mrows D)).

(* Interp(Range(f*NGauss, (f+1)*NGauss-1), all): 148-149 *)
Definition sideRows (NG f : nat) (I : mat T) : mat T := mkmat NG (mcols I) (fun i j => ment I (f * NG + i) j).
(* gVP = gVP(Range(NGauss-1, 0, -1), all): 150. The assignment reads rows it has already overwritten. *)
Definition reverseRows (NG : nat) (M : mat T) : outcome (mat T) :=
  for_ NG (fun i => for_ (mcols M) (fun j M => bind (mget M (NG - 1 - i) j) (fun v => mset M i j v))) M.
(* sum(X(kk,ii)*Y(kk,jj), kk): 275-293 *)
Definition gram (NG : nat) (X Y : mat T) (i j : nat) : T := fsum A NG (fun g => (ment X g i * ment Y g j)%gq).
(* sum(X(kk,ii)*Y(kk,jj)) without an index to reduce over: the sum of all the products, line 291 *)
Definition gramAll (NG Np : nat) (X Y : mat T) : T := fsum A Np (fun i => fsum A Np (fun j => gram NG X Y i j)).
(* gw(i)*gV(i, all): 264-267 *)
Definition weighted (w : nat -> T) (V : mat T) : mat T := mkmat (mrows V) (mcols V) (fun i j => (w i * ment V i j)%gq).

(* one pass of the loop over faces: 133-303. gDr and gDs have NGauss rows, so that they get the rows of Interp*Dr and
   Interp*Ds that belong to face 0, whatever the face (160-161). *)
Definition faceOP (q : gptables) (NF NG Np Nfp K N k f : nat) (st : mat T * triplet T) : outcome (mat T * triplet T) :=
  let '(OP11, OP) := st in let g := q_gauss q in
  bind (getn (q_E2E q) (NF * k + f)) (fun k2 => bind (getn (q_E2F q) (NF * k + f)) (fun f2 =>
  require ((k2 <? K) && (f2 <? NF)) (
  let x := fun i => ment (q_x q) i k in let y := fun i => ment (q_y q) i k in
  let x2 := fun i => ment (q_x q) i k2 in let y2 := fun i => ment (q_y q) i k2 in
  let gVM := sideRows NG f (gf_interp g) in
  bind (reverseRows NG (sideRows NG f2 (gf_interp g))) (fun gVP =>
  let gDr := mkmat NG Np (ment (mmul A (gf_interp g) (q_Dr q))) in let gDs := mkmat NG Np (ment (mmul A (gf_interp g) (q_Ds q))) in
  let J1 := jac gDr gDs x y in
  if smallJ NG J1 then Throw else
  let gDx1 := diffx NG gDr gDs y J1 in let gDy1 := diffy NG gDr gDs x J1 in
  if smallD gDx1 || smallD gDy1 then Throw else
  let J2 := jac gDr gDs x y in
  if smallJ NG J1 then Throw else
  let gDx2 := diffx NG gDr gDs y2 J2 in let gDy2 := diffy NG gDr gDs x2 J2 in
  if smallD gDx2 || smallD gDy2 then Throw else
  let nx := fun i => ment (gf_nx g) (f * NG + i) k in let ny := fun i => ment (gf_ny g) (f * NG + i) k in let w := fun i => ment (gf_W g) (f * NG + i) k in
  let gDnM := mkmat NG Np (fun i j => (nx i * ment gDx1 i j + ny i * ment gDy1 i j)%gq) in
  let gDnP := mkmat NG Np (fun i j => (nx i * ment gDx2 i j + ny i * ment gDy2 i j)%gq) in
  bind (mget (q_Fscale q) (f * Nfp) k) (fun fs1 => bind (mget (q_Fscale q) (f2 * Nfp) k2) (fun fs2 =>
  let factor := (20000 * Z.of_nat (N + 1) * Z.of_nat (N + 1))%Z in
  if (INT_MAX <? factor)%Z then UB else
  let gtau := (fofZ A factor * fmax A fs1 fs2)%gq in
  let wVM := weighted w gVM in let wVP := weighted w gVP in
  bind (getn (q_bc q) (NF * k + f)) (fun tag =>
  if (tag =? tagDirichlet)%Z then
    Ok (mkmat Np Np (fun i j => (((ment OP11 i j - gram NG gDnM wVM i j) - gram NG gVM wVM i j) + gtau * gram NG gVM wVM i j)%gq), OP)
  else if (tag =? tagNeuman)%Z || (tag =? tagWall)%Z then Ok (OP11, OP)
  else
    let c := (- half * gtau * gramAll NG Np wVM gVP)%gq in
    let OP12 := mkmat Np Np (fun i j => ((c - half * gram NG wVM gDnP i j) + half * gram NG gDnM wVP i j)%gq) in
    bind (insBlock A Np (Np * k) (Np * k2) OP12 OP) (fun OP =>
    Ok (mkmat Np Np (fun i j => (((ment OP11 i j - half * gram NG wVM gDnM i j) - half * gram NG gDnM wVM i j) + half * gtau * gram NG wVM gVM i j)%gq), OP))))))))).

(* one pass of the loop over elements: 56-313 *)
Definition elementOP (q : gptables) (NF NG Np Nfp K N k : nat) (st : triplet T * triplet T) : outcome (triplet T * triplet T) :=
  let '(OP, M) := st in
  bind (getn (cc_MM (q_cub q)) k) (fun MM => require (conform MM Np Np) (
  bind (for_ NF (faceOP q NF NG Np Nfp K N k) (volumeOP q k, OP)) (fun '(OP11, OP) =>
  insBlock2 A Np (Np * k) (Np * k) OP11 MM (OP, M)))).

Definition gp_conform (q : gptables) (NF NG Np Nfp K : nat) : bool :=
  let g := q_gauss q in let c := q_cub q in
  conform (q_Dr q) Np Np && conform (q_Ds q) Np Np && conform (q_x q) Np K && conform (q_y q) Np K && conform (q_Fscale q) (NF * Nfp) K &&
  conform (gf_interp g) (NF * NG) Np && conform (gf_nx g) (NF * NG) K && conform (gf_ny g) (NF * NG) K && conform (gf_W g) (NF * NG) K &&
  conform (cc_V c) (cc_n c) Np && conform (cc_W c) (cc_n c) K.

(* the whole function: 37-317; the capacities are ints *)
Definition gauss_assemble (q : gptables) (NF NG Np Nfp K N : nat) : outcome (triplet T * triplet T) :=
  require (gp_conform q NF NG Np Nfp K) (
  let dof := Np * K in
  let capM := (Z.of_nat Np * Z.of_nat Np * Z.of_nat K)%Z in let capO := ((1 + Z.of_nat NF) * Z.of_nat Np * Z.of_nat Np * Z.of_nat K)%Z in
  if (INT_MAX <? capO)%Z then UB else
  bind (TripletModel.ctor T #0 (Z.of_nat dof) (Z.of_nat dof) capM) (fun M =>
  bind (TripletModel.ctor T #0 (Z.of_nat dof) (Z.of_nat dof) capO) (fun OP =>
  for_ K (elementOP q NF NG Np Nfp K N) (OP, M)))).
Definition gauss_build (jk : nat * T) (q : gptables) (NF NG Np Nfp K N : nat) : outcome (poisson T) :=
  bind (gauss_assemble q NF NG Np Nfp K N) (fun '(OP, M) =>
  bind (ctor_triplet jk OP) (fun o => bind (ctor_triplet jk M) (fun m => Ok (Poisson o m)))).
End GaussPoisson.
Arguments gptables : clear implicits.
