(* QuadModel.v - src/QuadNodesProvisioner.cpp: basis, nodes, differentiation, lift, filter, interpolation and geometry of
   quadrilaterals. Dense solver, inverter and eigenvalue solver are parameters as in TriModel.v, from which the steps the two
   classes share line by line are taken (elementwise products, column assignment, face masks, edge mass matrices, metric terms).
   buildMaps and buildBCHash (450-612) are in Maps2DModel.v, splitElements (720-835) in SplitModel.v. *)
From Coq Require Import ZArith List Bool.
From Verif Require Import Base Loops Num BlitzModel JacobiModel Nodes1DModel TriModel.
Import ListNotations.
Local Open Scope nat_scope.

Declare Scope qd_scope.
Delimit Scope qd_scope with qd.
Section Quad.
Context {T : Type} (A : arith T).
Local Notation "a + b" := (fadd A a b) : qd_scope. Local Notation "a - b" := (fsub A a b) : qd_scope.
Local Notation "a * b" := (fmul A a b) : qd_scope. Local Notation "a / b" := (fdiv A a b) : qd_scope.
Local Notation "- a" := (fopp A a) : qd_scope.
Local Notation "# n" := (fofn A n) (at level 1, format "# n").
Local Notation "m ^T" := (mtrans m) (at level 20, left associativity).
Variable powi : T -> nat -> T.                             (* pow(double, int) with a non-negative exponent *)
Variable solve : mat T -> mat T -> mat T -> outcome (mat T).     (* DirectSolver::solve *)
Variable inverse : mat T -> mat T -> outcome (mat T).            (* DenseMatrixInverter::computeInverse *)
Variable junk : nat -> nat -> T.                                 (* uninitialised matrices *)

(* The loops over (i,j), i,j <= N, with the running column number. *)
Definition for_pairs {St} (N : nat) (body : nat -> nat -> nat -> St -> outcome St) (st : St) : outcome (St * nat) :=
  for_ (S N) (fun i => for_ (S N) (fun j '(st, count) => bind (body i j count st) (fun st' => Ok (st', S count)))) (st, 0).

(* computeVandermondeMatrix: src/QuadNodesProvisioner.cpp:76-92. The result is (V, Vinv): the member Vinv is overwritten
   with the inverse of the matrix just built. *)
Definition quadVandermonde (N : nat) (r s : list T) (V Vinv : mat T) : outcome (mat T * mat T) :=
  if negb (length r =? length s) then UB else
  bind (for_pairs N (fun i j count V =>
    setcol2 A V count (zip2 (fmul A) (computeJacobiPolynomial A s #0 #0 i) (computeJacobiPolynomial A r #0 #0 j))) V) (fun '(V, _) =>
  bind (inverse V Vinv) (fun Vinv => Ok (V, Vinv))).

(* computeGradVandermondeMatrix: src/QuadNodesProvisioner.cpp:94-112 *)
Definition quadGradVandermonde (N : nat) (r s : list T) (Vr Vs : mat T) : outcome (mat T * mat T) :=
  if negb (length r =? length s) then UB else
  bind (for_pairs N (fun i j count '(Vr, Vs) =>
    bind (setcol2 A Vr count (zip2 (fmul A) (computeGradJacobi A r #0 #0 j) (computeJacobiPolynomial A s #0 #0 i))) (fun Vr =>
    bind (setcol2 A Vs count (zip2 (fmul A) (computeJacobiPolynomial A r #0 #0 j) (computeGradJacobi A s #0 #0 i))) (fun Vs =>
    Ok (Vr, Vs)))) (Vr, Vs)) (fun st => Ok (fst st)).

(* computeDifferentiationMatrices: src/QuadNodesProvisioner.cpp:114-168; the result is (Dr, Ds, Drw, Dsw). *)
Definition quadDifferentiation (Vr Vs V : mat T) : outcome (mat T * mat T * mat T * mat T) :=
  let n := mrows V in let m := mcols V in
  let Z := mzero A m n in
  bind (solve (V^T) (Vr^T) Z) (fun Drt => bind (solve (V^T) (Vs^T) Z) (fun Dst =>
  bind (solve ((mmul A V (V^T))^T) ((mmul A V (Vr^T))^T) (mkmat n n junk)) (fun Drwt =>
  bind (solve ((mmul A V (V^T))^T) ((mmul A V (Vs^T))^T) (mkmat n n junk)) (fun Dswt =>
  Ok (Drt^T, Dst^T, Drwt^T, Dswt^T))))).

(* computeInterpMatrix: src/QuadNodesProvisioner.cpp:707-719; the result is (IM, the new member Vinv). *)
Definition quadInterp (N : nat) (Vinv : mat T) (rout sout : list T) : outcome (mat T * mat T) :=
  bind (quadVandermonde N rout sout (mkmat (length rout) (S N * S N) junk) Vinv) (fun '(Vout, Vinv) => Ok (mmul A Vout Vinv, Vinv)).

(* buildFilter: src/QuadNodesProvisioner.cpp:170-202. The loop is the one of the triangle class. *)
Variable fexp flog : T -> T.
Variable eps : T.
Definition quadFilter (N : nat) (V Vinv : mat T) (Nc : T) (s : nat) : outcome (mat T) :=
  let Np := S N * S N in
  bind (for_modes N (fun i j count F => mset F count count (filter_diag A powi fexp flog eps N Nc s i j)) (mzero A Np Np)) (fun '(Fdiag, _) =>
  Ok (mmul A V (mmul A Fdiag Vinv))).

(* buildNodes: src/QuadNodesProvisioner.cpp:204-275; the result is (r, s, masks of the four faces). The masks are computed
   as doubles and converted to integers, which is exact. *)
Variable eig : nat -> (nat -> nat -> T) -> list T * (nat -> nat -> T).
Variable tol : T.                                                (* NodeTol *)
Definition quadNodes (N : nat) : outcome (list T * list T * list (list nat)) :=
  let n := S N in
  let r1d := computeGaussLobottoPoints A eig eps #0 #0 N in
  let s1d := computeGaussLobottoPoints A eig eps #0 #0 N in
  bind (for_ n (fun j => for_ n (fun i '(r, s) =>
    bind (getn r1d j) (fun a => bind (getn s1d i) (fun b =>
    bind (setn r (n * j + i) a) (fun r => bind (setn s (n * j + i) b) (fun s => Ok (r, s)))))))
    (map (junk 0) (seq 0 (n * n)), map (junk 0) (seq 0 (n * n)))) (fun '(r, s) =>
  bind (faceMask A tol n (map (fun s => (s + #1)%qd) s)) (fun m1 =>
  bind (faceMask A tol n (map (fun r => (r - #1)%qd) r)) (fun m2 =>
  bind (faceMask A tol n (map (fun s => (s - #1)%qd) s)) (fun m3 =>
  bind (faceMask A tol n (map (fun r => (r + #1)%qd) r)) (fun m4 => Ok (r, s, [m1; m2; m3; m4])))))).

(* buildLift: src/QuadNodesProvisioner.cpp:615-705. The result is (V, Vinv, Lift). *)
Definition quadLift (N : nat) (r s : list T) (fm : list (list nat)) : outcome (mat T * mat T * mat T) :=
  let Np := S N * S N in let Nfp := S N in
  bind (getn fm 0) (fun m1 => bind (getn fm 1) (fun m2 => bind (getn fm 2) (fun m3 => bind (getn fm 3) (fun m4 =>
  bind (gather r m1) (fun f1 => bind (edgeMass A inverse junk Nfp f1) (fun M1 => bind (putEdge Nfp 0 m1 M1 (mzero A Np (4 * Nfp))) (fun E1 =>
  bind (gather s m2) (fun f2 => bind (edgeMass A inverse junk Nfp f2) (fun M2 => bind (putEdge Nfp 1 m2 M2 E1) (fun E2 =>
  bind (gather r m3) (fun f3 => bind (edgeMass A inverse junk Nfp f3) (fun M3 => bind (putEdge Nfp 2 m3 M3 E2) (fun E3 =>
  bind (gather s m4) (fun f4 => bind (edgeMass A inverse junk Nfp f4) (fun M4 => bind (putEdge Nfp 3 m4 M4 E3) (fun E4 =>
  bind (quadVandermonde N r s (mzero A Np Np) (mkmat Np Np junk)) (fun '(V, Vinv) =>
  Ok (V, Vinv, mmul A (mmul A V (V^T)) E4)))))))))))))))))).

(* buildPhysicalGrid, the coordinates: src/QuadNodesProvisioner.cpp:282-362. Vert holds x,y,z of each vertex, EToV four vertex
   numbers per element. *)
Definition quadXY (Vert : list T) (EToV : list nat) (k : nat) : outcome ((T * T) * (T * T) * (T * T) * (T * T)) :=
  bind (getn EToV (k * 4)) (fun va => bind (getn EToV (k * 4 + 1)) (fun vb => bind (getn EToV (k * 4 + 2)) (fun vc => bind (getn EToV (k * 4 + 3)) (fun vd =>
  bind (vertexXY Vert va) (fun a => bind (vertexXY Vert vb) (fun b => bind (vertexXY Vert vc) (fun c => bind (vertexXY Vert vd) (fun d => Ok (a, b, c, d))))))))).
Definition bilinear (r s a b c d : T) : T :=
  let q := (#1 / #4)%qd in let z := (#0 * #0)%qd in
  (q * ((#1 - r) * (#1 - s) + z) * a + q * ((#1 + r) * (#1 - s) + z) * b
   + q * ((#1 + r) * (#1 + s) + z) * c + q * ((#1 - r) * (#1 + s + z)) * d)%qd.
Definition quadGrid (K : nat) (Vert : list T) (EToV : list nat) (r s : list T) : outcome (mat T * mat T) :=
  let Np := length r in
  for_ K (fun k '(x, y) =>
    bind (quadXY Vert EToV k) (fun '(xa, ya, (xb, yb), (xc, yc), (xd, yd)) =>
    bind (setcol2 A x k (zip2 (fun r s => bilinear r s xa xb xc xd) r s)) (fun x' =>
    bind (setcol2 A y k (zip2 (fun r s => bilinear r s ya yb yc yd) r s)) (fun y' => Ok (x', y')))))
  (mkmat Np K junk, mkmat Np K junk).

(* normals and face scaling: src/QuadNodesProvisioner.cpp:377-447; nx, ny, Fscale are (4 Nfp) x K. *)
Definition quadFaceNormal (f : nat) (xr xs yr ys : T) : T * T :=
  match f with
  | 0 => (yr, (- xr)%qd)
  | 1 => (ys, (- xs)%qd)
  | 2 => ((- yr)%qd, xr)
  | _ => ((- ys)%qd, xs)
  end.
Definition quadNormals (K Nfp : nat) (fm : list (list nat)) (g : metric (T := T)) (st0 : mat T * mat T * mat T) : outcome (mat T * mat T * mat T) :=
  for_ K (fun k => for_ 4 (fun f => for_ Nfp (fun n '(nx, ny, Fs) =>
    bind (getn fm f) (fun mask => bind (getn mask n) (fun m =>
    bind (mget (g_xr g) m k) (fun xr => bind (mget (g_xs g) m k) (fun xs => bind (mget (g_yr g) m k) (fun yr => bind (mget (g_ys g) m k) (fun ys =>
    bind (mget (g_J g) m k) (fun J =>
    let (ux, uy) := quadFaceNormal f xr xs yr ys in
    let norm := fsqrt A (ux * ux + uy * uy)%qd in
    bind (mset nx (f * Nfp + n) k (ux / norm)%qd) (fun nx' =>
    bind (mset ny (f * Nfp + n) k (uy / norm)%qd) (fun ny' =>
    bind (mset Fs (f * Nfp + n) k (norm / J)%qd) (fun Fs' => Ok (nx', ny', Fs'))))))))))))))
  st0.

(* The constructor: src/QuadNodesProvisioner.cpp:36-74 with buildPhysicalGrid (277-448; the metric terms 364-375 are
   metricTerms of TriModel.v), up to, but without, buildMaps. *)
Definition buildQuad (N K : nat) (Vert : list T) (EToV : list nat) : outcome (element (T := T)) :=
  bind (quadNodes N) (fun '(r, s, fm) =>
  bind (quadLift N r s fm) (fun '(V0, Vinv0, Lift) =>
  bind (quadVandermonde N r s V0 Vinv0) (fun '(V, Vinv) =>
  let Np := S N * S N in let Nfp := S N in
  bind (quadGradVandermonde N r s (mkmat Np Np junk) (mkmat Np Np junk)) (fun '(Vr, Vs) =>
  bind (quadDifferentiation Vr Vs V) (fun '(Dr, Ds, Drw, Dsw) =>
  bind (quadGrid K Vert EToV r s) (fun '(x, y) =>
  let g := metricTerms A Dr Ds x y in
  let F := mkmat (4 * Nfp) K junk in
  bind (quadNormals K Nfp fm g (F, F, F)) (fun '(nx, ny, Fscale) =>
  Ok (Element r s fm V Vinv Lift Dr Ds Drw Dsw x y g nx ny Fscale)))))))).
End Quad.
