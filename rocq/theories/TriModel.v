(* TriModel.v - the reference triangle: src/TriangleNodesProvisioner.cpp (basis, nodes, differentiation, lift,
   filter, interpolation) and the straight-sided geometry. Dense solver, inverter and eigenvalue solver are
   parameters (see DenseModel.v); std::pow with an integer exponent, exp, log, cos and sin are parameters too. *)
From Coq Require Import ZArith List Bool.
From Verif Require Import Base Loops Num BlitzModel JacobiModel Nodes1DModel.
Import ListNotations.
Local Open Scope nat_scope.

Declare Scope tr_scope.
Delimit Scope tr_scope with tr.
Section Tri.
Context {T : Type} (A : arith T).
Local Notation "a + b" := (fadd A a b) : tr_scope. Local Notation "a - b" := (fsub A a b) : tr_scope.
Local Notation "a * b" := (fmul A a b) : tr_scope. Local Notation "a / b" := (fdiv A a b) : tr_scope.
Local Notation "- a" := (fopp A a) : tr_scope.
Local Notation "# n" := (fofn A n) (at level 1, format "# n").
Local Notation half := (fhalf A).
Variable powi : T -> nat -> T.                             (* pow(double, int) with a non-negative exponent *)

(* elementwise operation on two arrays of the same length *)
Definition zip2 (f : T -> T -> T) (a b : list T) : list T := map (fun p => f (fst p) (snd p)) (combine a b).

(* rsToab: src/TriangleNodesProvisioner.cpp:395-404 *)
Definition rsToab1 (r s : T) : T :=
  if negb (feq A s #1) then (#2 * (#1 + r) / (#1 - s) - #1)%tr else (- #1)%tr.
Definition rsToab (r s : list T) : list T * list T := (zip2 rsToab1 r s, s).

(* xyTors: src/TriangleNodesProvisioner.cpp:406-415 *)
Definition xyTors1 (x y : T) : T * T :=
  let sq3 := fsqrt A #3 in
  let L1 := ((sq3 * y + #1) / #3)%tr in
  let L2 := ((- #3 * x - sq3 * y + #2) / #6)%tr in
  let L3 := ((#3 * x - sq3 * y + #2) / #6)%tr in
  ((- L2 + L3 - L1)%tr, (- L2 - L3 + L1)%tr).
Definition xyTors (x y : list T) : list T * list T :=
  (zip2 (fun x y => fst (xyTors1 x y)) x y, zip2 (fun x y => snd (xyTors1 x y)) x y).

(* evaluateSimplexPolynomial: src/TriangleNodesProvisioner.cpp:383-393 *)
Definition evaluateSimplexPolynomial (a b : list T) (i j : nat) : list T :=
  let h1 := computeJacobiPolynomial A a #0 #0 i in
  let h2 := computeJacobiPolynomial A b (#2 * #i + #1)%tr #0 j in
  zip2 (fmul A) (zip2 (fun h1 h2 => (fsqrt A #2 * h1 * h2)%tr) h1 h2) (map (fun b => powi (#1 - b)%tr i) b).

(* evaluateGradSimplex: src/TriangleNodesProvisioner.cpp:642-676; the result is (dpdr, dpds) *)
Definition evaluateGradSimplex (a b : list T) (id jd : nat) : list T * list T :=
  let fa := computeJacobiPolynomial A a #0 #0 id in
  let gb := computeJacobiPolynomial A b (#2 * #id + #1)%tr #0 jd in
  let dfa := computeGradJacobi A a #0 #0 id in
  let dgb := computeGradJacobi A b (#2 * #id + #1)%tr #0 jd in
  let hb k := map (fun b => powi (half * (#1 - b))%tr k) b in
  let dpdr0 := zip2 (fmul A) dfa gb in
  let dpdr1 := if 1 <? id then zip2 (fmul A) dpdr0 (hb (id - 1)) else dpdr0 in
  let dpds0 := zip2 (fmul A) dfa (zip2 (fun g a => (g * (half * (#1 + a)))%tr) gb a) in
  let dpds1 := if 1 <? id then zip2 (fmul A) dpds0 (hb (id - 1)) else dpds0 in
  let tmp0 := zip2 (fmul A) dgb (hb id) in
  let tmp1 := if 0 <? id then zip2 (fsub A) tmp0 (zip2 (fun g h => (half * #id * g * h)%tr) gb (hb (id - 1))) else tmp0 in
  let dpds2 := zip2 (fadd A) dpds1 (zip2 (fmul A) fa tmp1) in
  let c := fpow A #2 (#id + half)%tr in
  (map (fun v => (c * v)%tr) dpdr1, map (fun v => (c * v)%tr) dpds2).

(* M(Range::all(), j) = v *)
Definition setcol2 (m : mat T) (j : nat) (v : list T) : outcome (mat T) :=
  if (j <? mcols m) && (length v =? mrows m)
  then Ok (mkmat (mrows m) (mcols m) (fun a b => if b =? j then nth a v #0 else ment m a b)) else UB.

(* The loops over the modes (i,j), i+j <= N, with the running column number. *)
Definition for_modes {St} (N : nat) (body : nat -> nat -> nat -> St -> outcome St) (st : St) : outcome (St * nat) :=
  for_ (S N) (fun i => for_ (S (N - i)) (fun j '(st, count) => bind (body i j count st) (fun st' => Ok (st', S count)))) (st, 0).

(* computeVandermondeMatrix: src/TriangleNodesProvisioner.cpp:418-434. V is the matrix written to. *)
Definition computeVandermonde2D (N : nat) (r s : list T) (V : mat T) : outcome (mat T) :=
  if negb (length r =? length s) then UB else
  let (a, b) := rsToab r s in
  bind (for_modes N (fun i j count V => setcol2 V count (evaluateSimplexPolynomial a b i j)) V) (fun st => Ok (fst st)).

(* computeGradVandermondeMatrix: src/TriangleNodesProvisioner.cpp:436-454 *)
Definition computeGradVandermonde2D (N : nat) (r s : list T) (Vr Vs : mat T) : outcome (mat T * mat T) :=
  if negb (length r =? length s) then UB else
  let (a, b) := rsToab r s in
  bind (for_modes N (fun i j count '(Vr, Vs) =>
     let (dr, ds) := evaluateGradSimplex a b i j in
     bind (setcol2 Vr count dr) (fun Vr' => bind (setcol2 Vs count ds) (fun Vs' => Ok (Vr', Vs')))) (Vr, Vs)) (fun st => Ok (fst st)).

Variable solve : mat T -> mat T -> mat T -> outcome (mat T).     (* DirectSolver::solve *)
Variable inverse : mat T -> mat T -> outcome (mat T).            (* DenseMatrixInverter::computeInverse *)
Variable junk : nat -> nat -> T.                                 (* uninitialised matrices *)
Local Notation "m ^T" := (mtrans m) (at level 20, left associativity).

(* computeDifferentiationMatrices: src/TriangleNodesProvisioner.cpp:456-513; the result is (Dr, Ds, Drw, Dsw).
   VVt is declared Nc x Nc, VVrt and VVst Nc x Np, their transposes Nc x Nc and Np x Nc. *)
Definition computeDifferentiationMatrices (Vr Vs V Vc : mat T) : outcome (mat T * mat T * mat T * mat T) :=
  let Np := mrows V in let Nc := mrows Vr in
  let Z := mzero A Np Nc in
  bind (solve (V^T) (Vr^T) Z) (fun Drt => bind (solve (V^T) (Vs^T) Z) (fun Dst =>
  let Vct := Vc^T in
  let VVt := mkmat Nc Nc (ment (mmul A Vc Vct)) in
  let VVrt := mkmat Nc Np (ment (mmul A Vc (Vr^T))) in
  let VVst := mkmat Nc Np (ment (mmul A Vc (Vs^T))) in
  bind (solve (VVt^T) (VVrt^T) (mkmat Np Nc junk)) (fun Drwt => bind (solve (VVt^T) (VVst^T) (mkmat Np Nc junk)) (fun Dswt =>
  Ok (Drt^T, Dst^T, Drwt^T, Dswt^T))))).

(* computeInterpMatrix: src/TriangleNodesProvisioner.cpp:1140-1152 *)
Definition computeInterpMatrix (N : nat) (Vinv : mat T) (rout sout : list T) : outcome (mat T) :=
  bind (computeVandermonde2D N rout sout (mkmat (length rout) (mrows Vinv) junk)) (fun Vout => Ok (mmul A Vout Vinv)).

(* buildFilter: src/TriangleNodesProvisioner.cpp:515-547. Nc is a double. *)
Variable fexp flog : T -> T.
Variable eps : T.
Definition filter_diag (N : nat) (Nc : T) (s : nat) (i j : nat) : T :=
  let alpha := (- flog eps)%tr in
  if fle A Nc #(i + j)
  then let k := ((#(i + j) - Nc) / (#N - Nc))%tr in fexp (- alpha * powi k s)%tr
  else #1.
Definition buildFilter (N : nat) (V Vinv : mat T) (Nc : T) (s : nat) : outcome (mat T) :=
  let Np := mrows V in
  bind (for_modes N (fun i j count F => mset F count count (filter_diag N Nc s i j)) (mzero A Np Np)) (fun '(Fdiag, _) =>
  Ok (mmul A V (mmul A Fdiag Vinv))).

(* ---- the nodes ---- *)
Variable eig : nat -> (nat -> nat -> T) -> list T * (nat -> nat -> T).
Variable fcos fsin : T -> T.
Variable pi : T.

(* computeWarpFactor: src/TriangleNodesProvisioner.cpp:604-640. The inverse of Veq computed on the way is unused,
   but a failure of it would throw. *)
Definition computeWarpFactor (N : nat) (r : list T) : outcome (list T) :=
  let Np := S N in let Nr := length r in
  let req := map (fun i => (- #1 + #2 * #i / (#Np - #1))%tr) (seq 0 Np) in
  let rLGL := computeGaussLobottoPoints A eig eps #0 #0 N in
  let Veq := vandermonde1D A req Np in
  bind (inverse Veq (mkmat Np Np junk)) (fun _ =>
  let P := mkmat Np Nr (fun i q => nth q (computeJacobiPolynomial A r #0 #0 i) #0) in
  bind (solve (Veq^T) P (mkmat Np Nr junk)) (fun L =>
  Ok (map (fun q =>
    let warp := fsum A Np (fun j => (ment L j q * (nth j rLGL #0 - nth j req #0))%tr) in
    let rq := nth q r #0 in
    let zf := if flt A (fabs A rq) (#1 - #1 / fofZ A 10000000000)%tr then #1 else #0 in
    let sf := (#1 - (zf * rq) * (zf * rq))%tr in
    (warp / sf + warp * (zf - #1))%tr) (seq 0 Nr)))).

(* the 15 literals of src/TriangleNodesProvisioner.cpp:552-553 *)
Definition alphaOptimal : list T := map (fun z => (fofZ A z / fofZ A 10000)%tr)
  [0; 0; 14152; 1001; 2751; 9800; 10999; 12832; 13648; 14773; 14959; 15743; 15770; 16223; 16258]%Z.

(* computeEquilateralNodes: src/TriangleNodesProvisioner.cpp:549-602. (N-1) indexes the table: N = 0 is undefined. *)
Definition equi_pairs (N : nat) : list (nat * nat) :=
  flat_map (fun n => map (fun m => (n, m)) (seq 0 (S N - n))) (seq 0 (S N)).
Definition computeEquilateralNodes (N : nat) : outcome (list T * list T) :=
  if N =? 0 then UB else
  let alpha := if N <? 16 then nth (N - 1) alphaOptimal #0 else (#2 / #3)%tr in
  let L1 := map (fun '(n, m) => (#n / #N)%tr) (equi_pairs N) in
  let L3 := map (fun '(n, m) => (#m / #N)%tr) (equi_pairs N) in
  let L2 := zip2 (fun l1 l3 => (#1 - l1 - l3)%tr) L1 L3 in
  bind (computeWarpFactor N (zip2 (fsub A) L3 L2)) (fun w1 =>
  bind (computeWarpFactor N (zip2 (fsub A) L1 L3)) (fun w2 =>
  bind (computeWarpFactor N (zip2 (fsub A) L2 L1)) (fun w3 =>
  let a2 := (alpha * alpha)%tr in
  let node q :=
    let l1 := nth q L1 #0 in let l2 := nth q L2 #0 in let l3 := nth q L3 #0 in
    let warp1 := ((#4 * l2 * l3) * nth q w1 #0 * (#1 + a2 * l1 * l1))%tr in
    let warp2 := ((#4 * l1 * l3) * nth q w2 #0 * (#1 + a2 * l2 * l2))%tr in
    let warp3 := ((#4 * l1 * l2) * nth q w3 #0 * (#1 + a2 * l3 * l3))%tr in
    ((- l2 + l3 + (#1 * warp1 + fcos (#2 * pi / #3) * warp2 + fcos (#4 * pi / #3) * warp3))%tr,
     ((- l2 - l3 + #2 * l1) / fsqrt A #3 + (#0 * warp1 + fsin (#2 * pi / #3) * warp2 + fsin (#4 * pi / #3) * warp3))%tr) in
  let nodes := map node (seq 0 (length (equi_pairs N))) in
  Ok (map fst nodes, map snd nodes)))).

Variable tol : T.                                                (* NodeTol *)
(* one face mask: src/TriangleNodesProvisioner.cpp:692-700 *)
Definition faceMask (Nfp : nat) (test : list T) : outcome (list nat) :=
  bind (for_ (length test) (fun i '(mask, count) =>
     bind (getn test i) (fun t =>
     if flt A (fabs A t) tol then bind (setn mask count i) (fun m => Ok (m, S count)) else Ok (mask, count)))
   (repeat 0 Nfp, 0)) (fun st => Ok (fst st)).

(* buildNodes: src/TriangleNodesProvisioner.cpp:678-728; the result is (r, s, masks of the three faces) *)
Definition buildNodes2D (N : nat) : outcome (list T * list T * list (list nat)) :=
  bind (computeEquilateralNodes N) (fun '(x, y) =>
  let (r, s) := xyTors x y in
  bind (faceMask (S N) (map (fun s => (s + #1)%tr) s)) (fun m1 =>
  bind (faceMask (S N) (zip2 (fadd A) r s)) (fun m2 =>
  bind (faceMask (S N) (map (fun r => (r + #1)%tr) r)) (fun m3 => Ok (r, s, [m1; m2; m3]))))).

(* buildLift: src/TriangleNodesProvisioner.cpp:1060-1138. The result is (V, Vinv, Lift). *)
Definition edgeMass (Nfp : nat) (faceX : list T) : outcome (mat T) :=
  let V1D := vandermonde1D A faceX Nfp in
  bind (inverse V1D (mkmat Nfp Nfp junk)) (fun _ =>
  inverse (mmul A V1D (V1D^T)) (mkmat Nfp Nfp junk)).
Definition gather (x : list T) (mask : list nat) : outcome (list T) :=
  for_ (length mask) (fun i l => bind (getn mask i) (fun m => bind (getn x m) (fun v => Ok (l ++ [v])))) [].
Definition putEdge (Nfp f : nat) (mask : list nat) (M E : mat T) : outcome (mat T) :=
  for_ Nfp (fun i => for_ Nfp (fun j E => bind (getn mask i) (fun m => bind (mget M i j) (fun v => mset E m (f * Nfp + j) v)))) E.
Definition buildLift2D (N : nat) (r s : list T) (fm : list (list nat)) : outcome (mat T * mat T * mat T) :=
  let Np := length r in let Nfp := S N in
  bind (getn fm 0) (fun m1 => bind (getn fm 1) (fun m2 => bind (getn fm 2) (fun m3 =>
  bind (gather r m1) (fun f1 => bind (edgeMass Nfp f1) (fun M1 => bind (putEdge Nfp 0 m1 M1 (mzero A Np (3 * Nfp))) (fun E1 =>
  bind (gather r m2) (fun f2 => bind (edgeMass Nfp f2) (fun M2 => bind (putEdge Nfp 1 m2 M2 E1) (fun E2 =>
  bind (gather s m3) (fun f3 => bind (edgeMass Nfp f3) (fun M3 => bind (putEdge Nfp 2 m3 M3 E2) (fun E3 =>
  bind (computeVandermonde2D N r s (mzero A Np Np)) (fun V =>
  bind (inverse V (mkmat Np Np junk)) (fun Vinv =>
  Ok (V, Vinv, mmul A (mmul A V (V^T)) E3))))))))))))))).

(* ---- straight-sided geometry ---- *)
(* buildPhysicalGrid, the coordinates: src/TriangleNodesProvisioner.cpp:741-803. Vert holds x,y,z of each vertex,
   EToV three vertex numbers per element. *)
Definition vertexXY (Vert : list T) (v : nat) : outcome (T * T) :=
  bind (getn Vert (v * 3)) (fun x => bind (getn Vert (v * 3 + 1)) (fun y => Ok (x, y))).
Definition elementXY (Vert : list T) (EToV : list nat) (k : nat) : outcome ((T * T) * (T * T) * (T * T)) :=
  bind (getn EToV (k * 3)) (fun va => bind (getn EToV (k * 3 + 1)) (fun vb => bind (getn EToV (k * 3 + 2)) (fun vc =>
  bind (vertexXY Vert va) (fun a => bind (vertexXY Vert vb) (fun b => bind (vertexXY Vert vc) (fun c => Ok (a, b, c))))))).
Definition affine (r s a b c : T) : T :=
  (half * (- (r + s + #0 * #0) * a + (#1 + r + #0 * #0) * b + (#1 + s + #0 * #0) * c))%tr.
Definition physGrid (K : nat) (Vert : list T) (EToV : list nat) (r s : list T) : outcome (mat T * mat T) :=
  let Np := length r in
  for_ K (fun k '(x, y) =>
    bind (elementXY Vert EToV k) (fun '(xa, ya, (xb, yb), (xc, yc)) =>
    bind (setcol2 x k (zip2 (fun r s => affine r s xa xb xc) r s)) (fun x' =>
    bind (setcol2 y k (zip2 (fun r s => affine r s ya yb yc) r s)) (fun y' => Ok (x', y')))))
  (mkmat Np K junk, mkmat Np K junk).

(* metric terms: src/TriangleNodesProvisioner.cpp:805-817; the result is (xr, xs, yr, ys, J, rx, ry, sx, sy) *)
Record metric := Metric { g_xr : mat T; g_xs : mat T; g_yr : mat T; g_ys : mat T; g_J : mat T; g_rx : mat T; g_ry : mat T; g_sx : mat T; g_sy : mat T }.
Definition mzip (f : T -> T -> T) (a b : mat T) : mat T := mkmat (mrows a) (mcols a) (fun i j => f (ment a i j) (ment b i j)).
Definition metricTerms (Dr Ds x y : mat T) : metric :=
  let xr := mmul A Dr x in let yr := mmul A Dr y in let xs := mmul A Ds x in let ys := mmul A Ds y in
  let J := mzip (fsub A) (mzip (fmul A) xr ys) (mzip (fmul A) xs yr) in
  let neg := fun m => mkmat (mrows m) (mcols m) (fun i j => fopp A (ment m i j)) in
  Metric xr xs yr ys J (mzip (fdiv A) ys J) (mzip (fdiv A) (neg xs) J) (mzip (fdiv A) (neg yr) J) (mzip (fdiv A) xr J).

(* normals and face scaling: src/TriangleNodesProvisioner.cpp:819-892; nx, ny, Fscale are (3 Nfp) x K. *)
Definition faceNormal (f : nat) (xr xs yr ys : T) : T * T :=
  match f with
  | 0 => (yr, (- xr)%tr)
  | 1 => ((ys - yr)%tr, (- xs + xr)%tr)
  | _ => ((- ys)%tr, xs)
  end.
Definition normals (K Nfp : nat) (fm : list (list nat)) (g : metric) (st0 : mat T * mat T * mat T) : outcome (mat T * mat T * mat T) :=
  for_ K (fun k => for_ 3 (fun f => for_ Nfp (fun n '(nx, ny, Fs) =>
    bind (getn fm f) (fun mask => bind (getn mask n) (fun m =>
    bind (mget (g_xr g) m k) (fun xr => bind (mget (g_xs g) m k) (fun xs => bind (mget (g_yr g) m k) (fun yr => bind (mget (g_ys g) m k) (fun ys =>
    bind (mget (g_J g) m k) (fun J =>
    let (ux, uy) := faceNormal f xr xs yr ys in
    let norm := fsqrt A (ux * ux + uy * uy)%tr in
    bind (mset nx (f * Nfp + n) k (ux / norm)%tr) (fun nx' =>
    bind (mset ny (f * Nfp + n) k (uy / norm)%tr) (fun ny' =>
    bind (mset Fs (f * Nfp + n) k (norm / J)%tr) (fun Fs' => Ok (nx', ny', Fs'))))))))))))))
  st0.

(* The constructor: src/TriangleNodesProvisioner.cpp:39-79 with buildPhysicalGrid (730-892) up to, but without, buildMaps.
   V and Vinv are computed twice, as in the code; the second pair stays. Allocation sizes are (N+1)(N+2)/2 = length r. *)
Record element := Element { e_r : list T; e_s : list T; e_masks : list (list nat); e_V : mat T; e_Vinv : mat T; e_Lift : mat T;
  e_Dr : mat T; e_Ds : mat T; e_Drw : mat T; e_Dsw : mat T; e_x : mat T; e_y : mat T; e_metric : metric; e_nx : mat T; e_ny : mat T; e_Fscale : mat T }.
Definition buildElement (N K : nat) (Vert : list T) (EToV : list nat) : outcome element :=
  bind (buildNodes2D N) (fun '(r, s, fm) =>
  bind (buildLift2D N r s fm) (fun '(V0, _, Lift) =>
  bind (physGrid K Vert EToV r s) (fun '(x, y) =>
  let Np := length r in let Nfp := S N in
  bind (computeVandermonde2D N r s V0) (fun V =>
  bind (inverse V (mkmat Np Np junk)) (fun Vinv =>
  bind (computeGradVandermonde2D N r s (mkmat Np Np junk) (mkmat Np Np junk)) (fun '(Vr, Vs) =>
  bind (computeDifferentiationMatrices Vr Vs V V) (fun '(Dr, Ds, Drw, Dsw) =>
  let g := metricTerms Dr Ds x y in
  let F := mkmat (3 * Nfp) K junk in
  bind (normals K Nfp fm g (F, F, F)) (fun '(nx, ny, Fscale) =>
  Ok (Element r s fm V Vinv Lift Dr Ds Drw Dsw x y g nx ny Fscale))))))))).
End Tri.
